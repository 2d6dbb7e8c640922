(** Proofs about owner memos, pool notes and batches. *)
From Coq Require Import List NArith ZArith Bool Lia ZifyBool ZifyNat ZifyN Field.
From Verif Require Import Base Field PField Power UtilsModel TurboModel TurboSpec TurboProofs TurboHonest TurboKit TurboEmit
  RescueModel RescueSpec RescueProofs XfrModel MixModel MixSpec MixProofs MixLemmas AxfrModel AxfrSpec AxfrProofs AxfrHonest AxfrLemmas
  FoldModel FoldLemmas NoteModel.
Import ListNotations.
Ltac Zify.zify_post_hook ::= Z.div_mod_to_equations.
Local Open Scope F_scope.

Lemma le_bytes_len n x : length (le_bytes n x) = n.
Proof. revert x. induction n as [|n IH]; intros x; [reflexivity|]. cbn. now rewrite IH. Qed.
Lemma le_bytes_lt n x : Forall (fun b => b < 256)%N (le_bytes n x).
Proof. revert x. induction n as [|n IH]; intros x; constructor; [lia|apply IH]. Qed.
Lemma le_value_bytes n : forall x, (x < 256 ^ N.of_nat n)%N -> le_value (le_bytes n x) = x.
Proof.
  induction n as [|n IH]; intros x Hx; [cbn in *; lia|]. cbn [le_bytes le_value]. rewrite Nat2N.inj_succ, N.pow_succ_r' in Hx.
  rewrite IH; [lia|]. apply N.div_lt_upper_bound; lia.
Qed.

Section Memo.
Context (F : PField) (P : rescue_instance F) (as_scalar : N -> F) (S : suite).
Notation parse_memo := (parse_memo F P as_scalar S).
Notation commit_pt := (commit_pt F P as_scalar S).
Lemma msg_len amount ty (blind : F) : length (memo_msg F amount ty blind) = 72%nat.
Proof. unfold memo_msg, scalar_to_bytes. now rewrite !app_length, !le_bytes_len. Qed.
Lemma msg_bytes amount ty (blind : F) : Forall (fun b => b < 256)%N (memo_msg F amount ty blind).
Proof. unfold memo_msg, scalar_to_bytes. rewrite !Forall_app. repeat split; apply le_bytes_lt. Qed.
Lemma parse_eq bytes k com : length bytes = 72%nat ->
  parse_memo bytes k com =
  bind (commit_pt (ak_pk S k) (fofN (le_value (firstn 32 (skipn 40 bytes)))) (le_value (firstn 8 bytes)) (le_value (firstn 32 (skipn 8 bytes))))
    (fun expected => if feqb expected com
       then Ok (le_value (firstn 8 bytes), le_value (firstn 32 (skipn 8 bytes)), fofN (le_value (firstn 32 (skipn 40 bytes))))
       else Err).
Proof.
  intros L. unfold NoteModel.parse_memo. rewrite L. change (negb (Nat.eqb 72 (8 + 32 + 32))) with false. cbv iota.
  unfold u8_le_slice_to_u64, u8_le_slice. rewrite firstn_length, L. change (Nat.eqb (Nat.min 8 72) 8) with true. cbv iota. cbn [bind].
  unfold scalar_from_bytes. rewrite firstn_length, skipn_length, L. change (Nat.ltb 32 (Nat.min 32 (72 - 40))) with false. cbv iota. cbn [bind].
  reflexivity.
Qed.
Lemma parse_wrong_len bytes k com : length bytes <> 72%nat -> parse_memo bytes k com = Err.
Proof.
  intros L. unfold NoteModel.parse_memo. destruct (Nat.eqb_spec (length bytes) (8 + 32 + 32)) as [e|n]; [now contradiction L|reflexivity].
Qed.
Lemma parse_ok bytes k com a t b : parse_memo bytes k com = Ok (a, t, b) ->
  length bytes = 72%nat /\ a = le_value (firstn 8 bytes) /\ t = le_value (firstn 32 (skipn 8 bytes)) /\
  b = fofN (le_value (firstn 32 (skipn 40 bytes))) /\ commit_pt (ak_pk S k) b a t = Ok com.
Proof.
  destruct (Nat.eq_dec (length bytes) 72) as [L|L]; [|rewrite parse_wrong_len by exact L; discriminate].
  rewrite parse_eq by exact L. intros H. apply bind_ok in H. destruct H as [x [Hx H]].
  destruct (feqb_spec x com) as [E|n]; [|discriminate]. apply Ok_inj in H. injection H as <- <- <-. now subst x.
Qed.
Lemma msg_slices amount ty (blind : F) : (amount < 2 ^ 64)%N -> (ty < 2 ^ 256)%N -> (pchar F <= 2 ^ 256)%Z ->
  le_value (firstn 8 (memo_msg F amount ty blind)) = amount /\
  le_value (firstn 32 (skipn 8 (memo_msg F amount ty blind))) = ty /\
  fofN (le_value (firstn 32 (skipn 40 (memo_msg F amount ty blind)))) = blind.
Proof.
  intros Ha Ht Hp. unfold memo_msg.
  assert (X1 : firstn 8 (le_bytes 8 amount ++ le_bytes 32 ty ++ scalar_to_bytes F blind) = le_bytes 8 amount).
  { replace 8%nat with (length (le_bytes 8 amount)) at 1 by apply le_bytes_len. rewrite firstn_app, firstn_all, Nat.sub_diag. apply app_nil_r. }
  assert (X2 : skipn 8 (le_bytes 8 amount ++ le_bytes 32 ty ++ scalar_to_bytes F blind) = le_bytes 32 ty ++ scalar_to_bytes F blind).
  { replace 8%nat with (length (le_bytes 8 amount)) at 1 by apply le_bytes_len. now rewrite skipn_app, skipn_all, Nat.sub_diag. }
  assert (X3 : firstn 32 (le_bytes 32 ty ++ scalar_to_bytes F blind) = le_bytes 32 ty).
  { replace 32%nat with (length (le_bytes 32 ty)) at 1 by apply le_bytes_len. rewrite firstn_app, firstn_all, Nat.sub_diag. apply app_nil_r. }
  assert (X4 : skipn 40 (le_bytes 8 amount ++ le_bytes 32 ty ++ scalar_to_bytes F blind) = scalar_to_bytes F blind).
  { rewrite app_assoc. replace 40%nat with (length (le_bytes 8 amount ++ le_bytes 32 ty)) at 1 by (now rewrite app_length, !le_bytes_len).
    now rewrite skipn_app, skipn_all, Nat.sub_diag. }
  rewrite X1, X2, X3, X4. split; [now apply le_value_bytes|]. split; [now apply le_value_bytes|].
  unfold scalar_to_bytes. rewrite firstn_all2 by (rewrite le_bytes_len; lia). pose proof (toZ_range F blind) as R.
  rewrite le_value_bytes.
  - unfold fofN. rewrite Z2N.id by lia. apply fofZ_toZ.
  - change (256 ^ N.of_nat 32)%N with (2 ^ 256)%N. change (2 ^ 256)%N with (Z.to_N (2 ^ 256)). lia.
Qed.
End Memo.

(** ** Batches *)
Lemma verdict_ok l : batch_verdict l = Ok tt <-> Forall (fun r => r = Ok tt) l.
Proof.
  unfold batch_verdict. induction l as [|r l IH]; cbn [all_ok]; [split; constructor|].
  destruct r as [[]| |].
  - rewrite IH. split; [now constructor|]. intros H. now inversion H.
  - cbn. split; [discriminate|]. intros H. inversion H. discriminate.
  - cbn. split; [discriminate|]. intros H. inversion H. discriminate.
Qed.
Lemma existsb_false {A} (f : A -> bool) l : existsb f l = false <-> Forall (fun x => f x = false) l.
Proof.
  induction l as [|a l IH]; cbn; [split; constructor|]. rewrite orb_false_iff, IH. split.
  - intros [H1 H2]. now constructor.
  - intros H. inversion H. auto.
Qed.
Lemma guard_ok (b : bool) (r : res unit) : (if b then Err else r) = Ok tt <-> b = false /\ r = Ok tt.
Proof. destruct b; split; [discriminate|intros [H _]; discriminate|auto|tauto]. Qed.
Lemma bind_ok_iff {A B} (r : res A) (f : A -> res B) b : bind r f = Ok b <-> exists a, r = Ok a /\ f a = Ok b.
Proof. split; [apply bind_ok|]. intros [a [-> H]]. exact H. Qed.

(** ** Honest runs with their public inputs *)
Section Honest.
Context (F : PField).
Implicit Types c : tcs F.
Lemma pub_same c c' : Inv c -> extends c c' -> pub_values (val c') c = pub_values (val c) c.
Proof.
  intros I1 X2. unfold pub_values. pose proof I1 as [_ [_ [_ [W _]]]].
  assert (G : forall g, In g (gates c) -> pub_of (val c') g = pub_of (val c) g).
  { intros g Hg. unfold gates in Hg. apply in_rev in Hg. rewrite Forall_forall in W. destruct (W g Hg) as [_ Wg].
    unfold pub_of. destruct (g_pub g) as [v|]; [|reflexivity]. now rewrite (proj2 X2). }
  revert G. generalize (gates c). induction l as [|g l IH]; intros G; [reflexivity|]. cbn.
  rewrite (G g (or_introl eq_refl)), IH; [reflexivity|]. intros g' Hg'. apply G. now right.
Qed.
Definition hp {A} (m : CS F A) c (Q : A -> tcs F -> list F -> Prop) : Prop :=
  Inv (snd (m c)) /\ extends c (snd (m c)) /\
  exists vs, pub_values (val (snd (m c))) (snd (m c)) = pub_values (val c) c ++ vs /\ Q (fst (m c)) (snd (m c)) vs.
Lemma hpb {A B} (m : CS F A) (f : A -> CS F B) c Q1 Q :
  hp m c Q1 -> (forall a c' v1, Inv c' -> extends c c' -> Q1 a c' v1 -> hp (f a) c' (fun b c2 v2 => Q b c2 (v1 ++ v2))) ->
  hp (bnd m f) c Q.
Proof.
  intros [H1 [H2 [v1 [H3 H4]]]] Hf. unfold hp. rewrite bnd_eq. destruct (Hf _ _ _ H1 H2 H4) as [H5 [H6 [v2 [H7 H8]]]].
  split; [exact H5|]. split; [eapply extends_trans; eassumption|]. exists (v1 ++ v2). split; [|exact H8].
  now rewrite H7, H3, app_assoc.
Qed.
Lemma hp_of {A} (m : CS F A) c (Q : A -> tcs F -> Prop) K QE : Inv c -> emits F K m QE -> (forall g, K g -> silent F g) -> ha F m c Q ->
  hp m c (fun a c' vs => vs = [] /\ Q a c').
Proof.
  intros HI HE HK [H1 [H2 H3]]. split; [exact H1|]. split; [exact H2|]. exists []. split; [|auto].
  destruct (HE c) as [gs [E1 [E2 _]]]; [apply HI|].
  rewrite (pub_values_app F c _ gs _ E1), silent_pub; [|eapply Forall_impl; [|exact E2]; exact HK].
  f_equal. now apply pub_same.
Qed.
Lemma hp_any {A} (m : CS F A) c (Q : A -> tcs F -> Prop) QE : Inv c -> emits F (fun _ => True) m QE -> ha F m c Q ->
  hp m c (fun a c' _ => Q a c').
Proof.
  intros HI HE [H1 [H2 H3]]. split; [exact H1|]. split; [exact H2|].
  destruct (HE c) as [gs [E1 [E2 _]]]; [apply HI|].
  rewrite (pub_values_app F c _ gs _ E1). eexists. split; [|exact H3]. f_equal. now apply pub_same.
Qed.
Lemma hp_pi v x c : Inv c -> has F c v x -> hp (prepare_pi_variable F v) c (fun _ _ vs => vs = [x]).
Proof.
  intros HI HH. destruct (ha_pub F c v x HI HH) as [H1 [H2 _]]. split; [exact H1|]. split; [exact H2|]. exists [x]. split; [|reflexivity].
  assert (E : grev (snd (prepare_pi_variable F v c)) = [const_row F v 0 (Some v)] ++ grev c) by reflexivity.
  rewrite (pub_values_app F c _ _ _ E). rewrite (pub_same c) by assumption. cbn [rev app flat_map pub_of g_pub const_row].
  f_equal. f_equal. rewrite <- (proj2 HH). apply (proj2 H2), (proj1 HH).
Qed.
Lemma hp_new x c : Inv c -> hp (new_variable F x) c (fun o c' vs => vs = [] /\ has F c' o x).
Proof.
  intros HI. eapply (hp_of _ _ _ (silent F)); [exact HI|apply e_new|auto|]. now apply ha_new.
Qed.
End Honest.

(** ** Circuits *)
Section Circuits.
Context (F : PField) (P : rescue_instance F) (HP : rescue_ok F P) (e : N) (He : exp_inv F 5 e).
Context (Hbig : (2 ^ 64 < pchar F)%Z).
Add Field Fnote : (f_th F).
Implicit Types (c : tcs F) (w : nat -> F).
Notation hash := (AxfrModel.hash F P).
Notation plain_sil := (plain_sil F).

Lemma shield_sound q : soundp F (shield_cs F P e q) (fun _ => True)
  (fun w _ vs => w 0%nat = 0 -> exists a t b pk, vs = [a; t; commitment F hash pk b a t]).
Proof.
  unfold shield_cs.
  eapply spb; [apply (new_var_sp F)|]. intros a _.
  eapply spb; [apply sp_pi|]. intros ? _.
  eapply spb; [apply (new_var_sp F)|]. intros t _.
  eapply spb; [apply sp_pi|]. intros ? _.
  eapply spb; [apply (new_var_sp F)|]. intros b _.
  eapply spb.
  { eapply (sp_of F (plain F any) _ (fun _ => True) _ plain_sil); [|apply new_pk_sound].
    eapply ew; [apply (e_new_pk F any any2)|auto]. }
  intros pk _.
  eapply spb.
  { eapply (sp_of F (plain F any) _ (fun _ => True) _ plain_sil); [|apply (commit_sound F P HP e He)].
    eapply ew; [apply (e_commit F P e any any0 any2); [exact I..|apply okpk_any]|auto]. }
  intros com _.
  eapply spw; [apply sp_pi|auto|]. cbn beta.
  intros w ? vs _ -> v1 [-> R1] v2 [-> _] v3 -> v4 -> v5 -> v6 -> v7 -> Z.
  destruct pk as [[p0 p1] p2]. rewrite Z in R1.
  exists (w a), (w t), (w b), (w p0, w p1, w p2). cbn [app commitment]. now rewrite R1.
Qed.

Ltac lift E := cbn beta in *; repeat match type of E with extends ?c ?c' => match goal with
  | H : TurboProofs.has F c _ _ |- _ => apply (has_mono F c c' _ _ E) in H
  | H : has_pk F c _ _ |- _ => apply (has_pk_mono F c c' _ _ E) in H
  | H : has_sk F c _ _ |- _ => apply (has_sk_mono F c c' _ _ E) in H
  | H : has_payer F c _ _ |- _ => apply (has_payer_mono F c c' _ _ E) in H
  end end.

Lemma shield_complete q : hp F (shield_cs F P e q) (cs_new F)
  (fun _ _ vs => vs = [fofN (q_amount F q); q_type F q;
     commitment F hash (q_pk F q) (q_blind F q) (fofN (q_amount F q)) (q_type F q)]).
Proof.
  unfold shield_cs. pose proof (inv_new F) as I0.
  eapply hpb; [apply (hp_new F); exact I0|]. intros a c1 v1 I1 E1 [-> Ha]. lift E1.
  eapply hpb; [apply (hp_pi F _ _ _ I1 Ha)|]. intros u1 c2 v2 I2 E2 ->. lift E2.
  eapply hpb; [apply (hp_new F); exact I2|]. intros t c3 v3 I3 E3 [-> Ht]. lift E3.
  eapply hpb; [apply (hp_pi F _ _ _ I3 Ht)|]. intros u2 c4 v4 I4 E4 ->. lift E4.
  eapply hpb; [apply (hp_new F); exact I4|]. intros b c5 v5 I5 E5 [-> Hb]. lift E5.
  eapply hpb; [eapply (hp_of F _ _ _ (plain F any)); [exact I5|apply (e_new_pk F any any2)|exact plain_sil|apply (ha_new_pk F _ _ I5)]|].
  intros pk c6 v6 I6 E6 [-> Hpk]. lift E6.
  eapply hpb; [eapply (hp_of F _ _ _ (plain F any)); [exact I6|apply (e_commit F P e any any0 any2); [exact I..|apply okpk_any]|exact plain_sil|
    eapply (ha_commit F P HP e He); eassumption]|].
  intros com c7 v7 I7 E7 [-> Hc]. lift E7.
  destruct (hp_pi F _ _ _ I7 Hc) as [J1 [J2 [vs [J3 J4]]]]. split; [exact J1|]. split; [exact J2|].
  exists vs. split; [exact J3|]. now rewrite J4.
Qed.

Section Fold.
Context (folding : pk_v -> sk_v -> CS F unit) (Rf : (nat -> F) -> pk_v -> sk_v -> list F -> Prop)
  (Hfold : forall pk sk, soundp F (folding pk sk) (fun _ => True) (fun w _ vs => Rf w pk sk vs)).

Lemma unshield_sound p k : soundp F (unshield_cs F P e folding p k) (fun _ => True)
  (fun w _ vs => w 0%nat = 0 -> exists s root pkv skv fv, let pk := vpk F w pkv in let sk := vsk F w skv in
     length (sp_path s) = length (p_path F p) /\
     vs = [nullifier F hash pk sk s; root; sp_amount s; sp_type s] ++ fv /\ in_tree F hash pk root s /\ Rf w pkv skv fv).
Proof.
  unfold unshield_cs.
  eapply (spb _ _ _ (fun v => length (pv_path v) = length (p_path F p))).
  { eapply (sp_of F (plain F any) _ _ _ plain_sil); [|apply (add_payer_sound F)].
    eapply ew; [apply (e_add_payer F any any0 any2)|]. intros a [L _]. exact L. }
  intros v Hv.
  eapply spb.
  { eapply (sp_of F (plain F any) _ (fun _ => True) _ plain_sil); [|apply new_pk_sound].
    eapply ew; [apply (e_new_pk F any any2)|auto]. }
  intros pk _.
  eapply spb.
  { eapply (sp_of F (plain F any) _ (fun _ => True) _ plain_sil); [|apply new_sk_sound].
    eapply ew; [apply (e_new_sk F any any2)|auto]. }
  intros sk _.
  eapply spb.
  { eapply (sp_of F (plain F any) _ (fun _ => True) _ plain_sil); [|apply (commit_sound F P HP e He)].
    eapply ew; [apply (e_commit F P e any any0 any2); [exact I..|apply okpk_any]|auto]. }
  intros com _.
  eapply spb.
  { eapply (sp_of F (plain F any) _ (fun _ => True) _ plain_sil); [|apply linear_combine_sound].
    eapply ew; [apply (e_lc F any any2); exact I|auto]. }
  intros ua _.
  eapply spb.
  { eapply (sp_of F (plain F any) _ (fun _ => True) _ plain_sil); [|apply (nullify_sound F P HP e He)].
    eapply ew; [apply (e_nullify F P e any any0 any2); [apply oksk_any|exact I|exact I|apply okpk_any]|auto]. }
  intros nf _.
  eapply spb.
  { eapply (sp_of F (plain F any) _ (fun _ => True) _ plain_sil); [|apply (merkle_sound F P HP e He Hbig)].
    eapply ew; [apply (e_merkle F P e any any0 any2); [exact I..|apply oknodes_any]|auto]. }
  intros root _.
  eapply spb; [apply sp_pi|]. intros ? _.
  eapply spb; [apply sp_pi|]. intros ? _.
  eapply spb; [apply sp_pi|]. intros ? _.
  eapply spb; [apply sp_pi|]. intros ? _.
  eapply spw; [apply Hfold|auto|]. cbn beta.
  intros w ? fv _ HR v1 -> v2 -> v3 -> v4 -> v5 [-> R5] v6 [-> R6] v7 [-> R7] v8 [-> R8] v9 [-> _] v10 [-> _] v11 [-> R11] Z.
  exists (spend_of F w v), (w root), pk, sk, fv. cbv zeta.
  destruct pk as [[p0 p1] p2]. cbn [vpk]. unfold zero_var in R7. rewrite Z in R7, R8.
  split; [cbn; now rewrite map_length|]. split; [|split; [|exact HR]].
  - cbn [app]. f_equal. unfold nullifier, vsk. cbn [fst snd spend_of sp_uid sp_amount sp_type]. rewrite R6, R7. f_equal. f_equal. ring.
  - unfold in_tree. cbn [spend_of sp_uid sp_path]. rewrite (R5 Z R11), R8. reflexivity.
Qed.

Context (k : keypair F) (Ef : forall pk sk, emits F (fun _ => True) (folding pk sk) (fun _ => True)).
Context (Hf : forall pk sk c, Inv c -> has_pk F c pk (kp_pk F k) -> has_sk F c sk (kp_sk F k) -> ha F (folding pk sk) c (fun _ _ => True)).
Lemma ha_nullify_val sk ua t pk vs vu vt vp c : Inv c -> has_sk F c sk vs -> has F c ua vu -> has F c t vt -> has_pk F c pk vp ->
  ha F (nullify_in_cs F P e sk ua t pk) c (fun o c' => let '(q0, q1, q2) := vp in
    has F c' o (hash (hash vu vt q0 q1) q2 (fst vs) (snd vs))).
Proof.
  intros HI [H1 H2] H3 H4 H5. destruct pk as [[p0 p1] p2], vp as [[q0 q1] q2]. destruct H5 as [K0 [K1 K2]].
  unfold nullify_in_cs. eapply hb; [eapply (ha_hash F P HP e He); eassumption|]. intros u c1 I1 E1 Hu. lift E1.
  eapply (ha_hash F P HP e He); eassumption.
Qed.
Lemma unshield_complete p rv : payer_ok F p -> in_tree F hash (kp_pk F k) rv (spend_val F p) ->
  hp F (unshield_cs F P e folding p k) (cs_new F)
  (fun _ _ vs => exists fv, vs = [nullifier F hash (kp_pk F k) (kp_sk F k) (spend_val F p); rv; fofN (p_amount F p); p_type F p] ++ fv /\
     forall V, publishes F folding k V -> fv = V).
Proof.
  intros Hp HT. unfold unshield_cs. pose proof (inv_new F) as I0.
  eapply hpb; [eapply (hp_of F _ _ _ (plain F any)); [exact I0|apply (e_add_payer F any any0 any2)|exact plain_sil|apply (ha_add_payer F _ _ I0 Hp)]|].
  intros v c1 v1 I1 E1 [-> Hv]. lift E1.
  eapply hpb; [eapply (hp_of F _ _ _ (plain F any)); [exact I1|apply (e_new_pk F any any2)|exact plain_sil|apply (ha_new_pk F _ _ I1)]|].
  intros pk c2 v2 I2 E2 [-> Hpk]. lift E2.
  eapply hpb; [eapply (hp_of F _ _ _ (plain F any)); [exact I2|apply (e_new_sk F any any2)|exact plain_sil|apply (ha_new_sk F _ _ I2)]|].
  intros sk c3 v3 I3 E3 [-> Hsk]. lift E3.
  pose proof Hv as [V1 [V2 [V3 [V4 V5]]]].
  eapply hpb; [eapply (hp_of F _ _ _ (plain F any)); [exact I3|apply (e_commit F P e any any0 any2); [exact I..|apply okpk_any]|exact plain_sil|
    eapply (ha_commit F P HP e He); eassumption]|].
  intros com c4 v4 I4 E4 [-> Hc]. clear V1 V2 V3 V4 V5. lift E4. pose proof Hv as [V1 [V2 [V3 [V4 V5]]]].
  eapply hpb; [eapply (hp_of F _ _ _ (plain F any)); [exact I4|apply (e_lc F any any2); exact I|exact plain_sil|
    eapply (ha_linear_combine F c4); [exact I4|exact V1|exact V2|apply (has_zero F c4 I4)|apply (has_zero F c4 I4)]]|].
  intros ua c5 v5 I5 E5 [-> Hua]. clear V1 V2 V3 V4 V5. lift E5. pose proof Hv as [V1 [V2 [V3 [V4 V5]]]].
  eapply hpb; [eapply (hp_of F _ _ _ (plain F any)); [exact I5|apply (e_nullify F P e any any0 any2); [apply oksk_any|exact I|exact I|apply okpk_any]|exact plain_sil|
    eapply ha_nullify_val; eassumption]|].
  intros nf c6 v6 I6 E6 [-> Hnf]. clear V1 V2 V3 V4 V5.
  assert (Hnf' : has F c6 nf (nullifier F hash (kp_pk F k) (kp_sk F k) (spend_val F p))).
  { unfold nullifier. destruct (kp_pk F k) as [[q0 q1] q2]. cbn [spend_val sp_uid sp_amount sp_type].
    set (z := fofZ (2 ^ 64)) in *. replace (fofN (p_uid F p) * z + fofN (p_amount F p)) with
      (z * fofN (p_uid F p) + 1 * fofN (p_amount F p) + 0 * 0 + 0 * 0) by ring. exact Hnf. }
  clear Hnf. lift E6. pose proof Hv as [V1 [V2 [V3 [V4 V5]]]]. destruct Hp as [HF HA].
  eapply hpb; [eapply (hp_of F _ _ _ (plain F any)); [exact I6|apply (e_merkle F P e any any0 any2); [exact I..|apply oknodes_any]|exact plain_sil|
    eapply (ha_merkle F P HP e He); [exact I6|exact V1|exact Hc|exact V5|exact HF]]|].
  intros root c7 v7 I7 E7 [-> Hr]. clear V1 V2 V3 V4 V5. lift E7.
  assert (Hr' : has F c7 root rv). { unfold in_tree in HT. cbn [spend_val sp_uid sp_path] in HT. unfold spend_com in HT. cbn [spend_val sp_blind sp_amount sp_type] in HT. rewrite <- HT. exact Hr. }
  clear Hr.
  eapply hpb; [apply (hp_pi F _ _ _ I7 Hnf')|]. intros u1 c8 v8 I8 E8 ->. lift E8.
  eapply hpb; [apply (hp_pi F _ _ _ I8 Hr')|]. intros u2 c9 v9 I9 E9 ->. lift E9.
  eapply hpb; [apply (hp_pi F _ _ _ I9 (proj1 (proj2 Hv)))|]. intros u3 c10 v10 I10 E10 ->. lift E10.
  eapply hpb; [apply (hp_pi F _ _ _ I10 (proj1 (proj2 (proj2 Hv))))|]. intros u4 c11 v11 I11 E11 ->. lift E11.
  destruct (hp_any F _ _ _ _ I11 (Ef pk sk) (Hf pk sk c11 I11 Hpk Hsk)) as [J1 [J2 [vs [J3 _]]]].
  split; [exact J1|]. split; [exact J2|]. exists vs. split; [exact J3|]. exists vs. split; [reflexivity|].
  intros V HV. rewrite (HV pk sk c11 I11 Hpk Hsk) in J3. symmetry. exact (app_inv_head _ _ _ J3).
Qed.
End Fold.
End Circuits.

(** The functions of the code in the words of the specification. *)
Lemma commit_commitment (F : PField) (P : rescue_instance F) as_scalar pk b a t :
  AxfrModel.commit F P as_scalar pk b a t = commitment F (AxfrModel.hash F P) pk b (fofN a) (as_scalar t).
Proof. destruct pk as [[p0 p1] p2]. reflexivity. Qed.
Lemma nullify_nullifier (F : PField) (P : rescue_instance F) as_scalar k a t uid path blind :
  AxfrModel.nullify F P as_scalar k a t uid =
  nullifier F (AxfrModel.hash F P) (kp_pk F k) (kp_sk F k) (spend_val F (mkPayer F a (as_scalar t) uid path blind)).
Proof. unfold AxfrModel.nullify, nullifier. destruct (kp_pk F k) as [[p0 p1] p2]. reflexivity. Qed.
