(** Honest runs of the anonymous-transfer circuit, and forged ones. *)
From Coq Require Import List NArith ZArith Bool Lia ZifyBool ZifyNat ZifyN Field.
From Verif Require Import Base Field PField Power TurboModel TurboSpec TurboProofs TurboHonest TurboKit TurboEmit
  RescueModel RescueSpec RescueProofs XfrModel XfrSpec MixModel MixSpec MixProofs MixLemmas AxfrModel AxfrSpec AxfrProofs.
Import ListNotations.
Ltac Zify.zify_post_hook ::= Z.div_mod_to_equations.
Local Open Scope F_scope.

Section Honest.
Context (F : PField) (P : rescue_instance F) (HP : rescue_ok F P) (e : N) (He : exp_inv F 5 e).
Context (Hbig : (2 ^ 64 < pchar F)%Z).
Add Field Faxh : (f_th F).
Implicit Types (c : tcs F) (w : nat -> F).
Notation hash := (hash F P).
Notation has := (has F).
Notation ha := (ha F).

Lemma ha_hash a b x d va vb vx vd c : Inv c -> has c a va -> has c b vb -> has c x vx -> has c d vd ->
  ha (hash_cs F P e a b x d) c (fun o c' => has c' o (hash va vb vx vd)).
Proof.
  intros HI H1 H2 H3 H4. destruct (hash_ok F P HP va vb vx vd) as [t [E _]]. unfold hash_cs.
  eapply hb; [eapply (ha_rescue_hash F P HP e [a;b;x;d] [va;vb;vx;vd]); [exact He|exact HI|repeat (constructor; try assumption)|reflexivity|exact E]|].
  intros os c1 I1 E1 HO. apply hr; [exact I1|]. inversion HO; subst. cbn. assumption.
Qed.

(** Values of the records. *)
Definition flags_ok (n : node F) : Prop :=
  (n_left F n = 0 /\ n_right F n = 0)%N \/ (n_left F n = 1 /\ n_right F n = 0)%N \/ (n_left F n = 0 /\ n_right F n = 1)%N.
Definition step_val (n : node F) : step F :=
  ((if N.eqb (n_left F n) 0 then if N.eqb (n_right F n) 0 then SMiddle else SRight else SLeft), n_s1 F n, n_s2 F n).
Definition spend_val (p : payer_w F) : spend F :=
  mkSpend (fofN (p_uid F p)) (fofN (p_amount F p)) (p_type F p) (p_blind F p) (map step_val (p_path F p)).
Definition output_val (q : payee_w F) : output F :=
  mkOutput (fofN (q_amount F q)) (q_type F q) (q_blind F q) (q_pk F q).

Definition has_node c (v : node_v) (n : node F) : Prop :=
  has c (nv_s1 v) (n_s1 F n) /\ has c (nv_s2 v) (n_s2 F n) /\ has c (nv_left v) (fofN (n_left F n)) /\ has c (nv_right v) (fofN (n_right F n)).
Definition has_pk c (v : pk_v) (pk : F * F * F) : Prop :=
  let '(a, b, x) := v in let '(va, vb, vx) := pk in has c a va /\ has c b vb /\ has c x vx.
Definition has_sk c (v : sk_v) (sk : F * F) : Prop := has c (fst v) (fst sk) /\ has c (snd v) (snd sk).
Definition has_payer c (v : payer_v) (p : payer_w F) : Prop :=
  has c (pv_uid v) (fofN (p_uid F p)) /\ has c (pv_amount v) (fofN (p_amount F p)) /\ has c (pv_type v) (p_type F p) /\
  has c (pv_blind v) (p_blind F p) /\ Forall2 (has_node c) (pv_path v) (p_path F p).
Definition has_payee c (v : payee_v) (q : payee_w F) : Prop :=
  has c (qv_amount v) (fofN (q_amount F q)) /\ has c (qv_blind v) (q_blind F q) /\ has c (qv_type v) (q_type F q) /\
  has_pk c (qv_pk v) (q_pk F q).
Lemma has_node_mono c c' v n : extends c c' -> has_node c v n -> has_node c' v n.
Proof. intros E [H1 [H2 [H3 H4]]]. repeat split; try (eapply has_mono; eassumption); apply (has_mono F c c' _ _ E); assumption. Qed.
Lemma has_pk_mono c c' v n : extends c c' -> has_pk c v n -> has_pk c' v n.
Proof. intros E. destruct v as [[a b] x], n as [[va vb] vx]. intros [H1 [H2 H3]]. split; [|split]; apply (has_mono F c c' _ _ E); assumption. Qed.
Lemma has_sk_mono c c' v n : extends c c' -> has_sk c v n -> has_sk c' v n.
Proof. intros E [H1 H2]. split; apply (has_mono F c c' _ _ E); assumption. Qed.
Lemma nodes_mono c c' l l' : extends c c' -> Forall2 (has_node c) l l' -> Forall2 (has_node c') l l'.
Proof. intros E. induction 1; constructor; [eapply has_node_mono; eassumption|assumption]. Qed.
Lemma has_payer_mono c c' v n : extends c c' -> has_payer c v n -> has_payer c' v n.
Proof.
  intros E [H1 [H2 [H3 [H4 H5]]]]. pose proof (has_mono F c c') as M.
  split; [|split; [|split; [|split]]]; [apply (M _ _ E); assumption..|eapply nodes_mono; eassumption].
Qed.
Lemma has_payee_mono c c' v n : extends c c' -> has_payee c v n -> has_payee c' v n.
Proof.
  intros E [H1 [H2 [H3 H4]]]. pose proof (has_mono F c c') as M.
  split; [|split; [|split]]; [apply (M _ _ E); assumption..|eapply has_pk_mono; eassumption].
Qed.
Lemma payers_mono c c' l l' : extends c c' -> Forall2 (has_payer c) l l' -> Forall2 (has_payer c') l l'.
Proof. intros E. induction 1; constructor; [eapply has_payer_mono; eassumption|assumption]. Qed.
Lemma payees_mono c c' l l' : extends c c' -> Forall2 (has_payee c) l l' -> Forall2 (has_payee c') l l'.
Proof. intros E. induction 1; constructor; [eapply has_payee_mono; eassumption|assumption]. Qed.
Ltac lift E := cbn beta in *; repeat match type of E with extends ?c ?c' => match goal with
  | H : TurboProofs.has F c _ _ |- _ => apply (has_mono F c c' _ _ E) in H
  | H : has_node c _ _ |- _ => apply (has_node_mono c c' _ _ E) in H
  | H : has_pk c _ _ |- _ => apply (has_pk_mono c c' _ _ E) in H
  | H : has_sk c _ _ |- _ => apply (has_sk_mono c c' _ _ E) in H
  | H : has_payer c _ _ |- _ => apply (has_payer_mono c c' _ _ E) in H
  | H : Forall2 (has_node c) _ _ |- _ => apply (nodes_mono c c' _ _ E) in H
  | H : Forall2 (has_payer c) _ _ |- _ => apply (payers_mono c c' _ _ E) in H
  | H : Forall2 (has_payee c) _ _ |- _ => apply (payees_mono c c' _ _ E) in H
  end end.

Lemma ha_commit b a t pk vb va vt vp c : Inv c -> has c b vb -> has c a va -> has c t vt -> has_pk c pk vp ->
  ha (commit_in_cs F P e b a t pk) c (fun o c' => has c' o (commitment F hash vp vb va vt)).
Proof.
  intros HI H1 H2 H3 H4. destruct pk as [[p0 p1] p2], vp as [[q0 q1] q2]. destruct H4 as [K0 [K1 K2]].
  unfold commit_in_cs. eapply hb; [eapply ha_hash; eassumption|]. intros u c1 I1 E1 Hu. lift E1.
  eapply hw; [eapply ha_hash; [exact I1|exact Hu|exact K1|exact K2|apply (has_zero F c1 I1)]|]. auto.
Qed.
Lemma ha_nullify sk ua t pk vs vu vt vp c : Inv c -> has_sk c sk vs -> has c ua vu -> has c t vt -> has_pk c pk vp ->
  ha (nullify_in_cs F P e sk ua t pk) c (fun o c' => exists x, has c' o x).
Proof.
  intros HI [H1 H2] H3 H4 H5. destruct pk as [[p0 p1] p2], vp as [[q0 q1] q2]. destruct H5 as [K0 [K1 K2]].
  unfold nullify_in_cs. eapply hb; [eapply ha_hash; eassumption|]. intros u c1 I1 E1 Hu. lift E1.
  eapply hw; [eapply ha_hash; eassumption|]. cbn beta. eauto.
Qed.
Lemma fofN_0 : fofN 0 = (0 : F). Proof. reflexivity. Qed.
Lemma fofN_1 : fofN 1 = (1 : F). Proof. unfold fofN. apply fofZ_1. Qed.

Lemma ha_sort n s1 s2 l r vn nd c : Inv c -> has c n vn -> has_node c (mkNodeV s1 s2 l r) nd -> flags_ok nd ->
  ha (sort F n s1 s2 l r) c (fun st c' => exists x y z, has c' (fst (fst st)) x /\ has c' (snd (fst st)) y /\ has c' (snd st) z /\
     hash x y z 0 = parent F hash vn (step_val nd)).
Proof.
  intros HI Hn [K1 [K2 [K3 K4]]] HF. cbn [nv_s1 nv_s2 nv_left nv_right] in *. unfold sort.
  assert (Bl : boolean (fofN (n_left F nd) : F) /\ boolean (fofN (n_right F nd) : F)).
  { destruct HF as [[-> ->]|[[-> ->]|[-> ->]]]; rewrite ?fofN_0, ?fofN_1; split; unfold boolean; auto. }
  destruct Bl as [Bl Br].
  eapply hb; [eapply (ha_select F c); [exact HI|exact Bl|exact K1|exact Hn|exact K3]|]. intros lf c1 I1 E1 Hl. lift E1.
  eapply hb; [eapply (ha_select F c1); [exact I1|exact Br|exact K2|exact Hn|exact K4]|]. intros rt c2 I2 E2 Hr. lift E2.
  eapply hb; [eapply (ha_add F c2); [exact I2|exact Hl|exact Hr]|]. intros sm c3 I3 E3 Hs. lift E3.
  eapply hb; [eapply (ha_linear_combine F c3); [exact I3|exact Hn|exact K1|exact K2|exact Hs]|]. intros md c4 I4 E4 Hm. lift E4.
  apply hr; [exact I4|]. cbn [fst snd]. do 3 eexists. split; [exact Hl|]. split; [exact Hm|]. split; [exact Hr|].
  clear -HF Hbig. unfold step_val. destruct HF as [[-> ->]|[[-> ->]|[-> ->]]]; rewrite ?fofN_0, ?fofN_1; cbn [N.eqb Pos.eqb parent];
  repeat match goal with |- context [f_dec ?a 0] => destruct (f_dec a 0) as [?|?] end;
  try (exfalso; eapply f1_neq_0; eassumption); try congruence; f_equal; ring.
Qed.
Lemma ha_merkle uid com path vu vc nodes c : Inv c -> has c uid vu -> has c com vc -> Forall2 (has_node c) path nodes ->
  Forall flags_ok nodes ->
  ha (compute_merkle_root_variables F P e uid com path) c (fun o c' => has c' o (root_of F hash vu vc (map step_val nodes))).
Proof.
  intros HI Hu Hc HN HF. unfold compute_merkle_root_variables.
  eapply hb; [eapply ha_hash; [exact HI|exact Hu|exact Hc|apply (has_zero F c HI)|apply (has_zero F c HI)]|].
  intros n c1 I1 E1 Hn. lift E1. unfold root_of. revert Hn. generalize (hash vu vc 0 0). clear Hu Hc E1 HI.
  revert n c1 I1 HN HF. revert path. induction nodes as [|nd nodes IH]; intros path n c1 I1 HN HF x Hn; inversion HN as [|v ? path' ? K1 K2]; subst.
  - cbn [merkle_loop map fold_left]. now apply hr.
  - inversion HF as [|? ? F1 F2]; subst. cbn [merkle_loop map fold_left].
    eapply hb; [eapply (ha_sort n _ _ _ _ x nd c1); [exact I1|exact Hn|destruct v; exact K1|exact F1]|].
    intros st c2 I2 E2 [a [b [d [Ha [Hb [Hd E]]]]]]. clear Hn. lift E2.
    eapply hb; [eapply ha_hash; [exact I2|exact Ha|exact Hb|exact Hd|apply (has_zero F c2 I2)]|].
    intros n' c3 I3 E3 Hn'. rewrite E in Hn'. lift E3. now apply IH.
Qed.

(** Allocation. *)
Lemma ha_mapM {A B} (f : A -> CS F B) (R : tcs F -> B -> A -> Prop) (OK : A -> Prop)
  (mono : forall c c' b a, extends c c' -> R c b a -> R c' b a) l :
  (forall a c, Inv c -> OK a -> ha (f a) c (fun b c' => R c' b a)) ->
  forall c, Inv c -> Forall OK l -> ha (RescueModel.mapM F f l) c (fun bs c' => Forall2 (R c') bs l).
Proof.
  intros H. induction l as [|a l IH]; intros c HI HO; cbn [RescueModel.mapM]; [apply hr; [exact HI|constructor]|].
  inversion HO; subst. eapply hb; [apply H; assumption|]. intros b c1 I1 E1 Hb. eapply hb; [apply IH; assumption|].
  intros bs c2 I2 E2 Hbs. apply hr; [exact I2|]. constructor; [eapply mono; eassumption|exact Hbs].
Qed.
Lemma ha_new_node n c : Inv c -> True -> ha (new_node F n) c (fun v c' => has_node c' v n).
Proof.
  intros HI _. unfold new_node.
  eapply hb; [apply (ha_new F c _ HI)|]. intros a c1 I1 E1 Ha. lift E1.
  eapply hb; [apply (ha_new F c1 _ I1)|]. intros b c2 I2 E2 Hb. lift E2.
  eapply hb; [apply (ha_new F c2 _ I2)|]. intros x c3 I3 E3 Hx. lift E3.
  eapply hb; [apply (ha_new F c3 _ I3)|]. intros y c4 I4 E4 Hy. lift E4.
  apply hr; [exact I4|]. repeat split; cbn; try apply Ha; try apply Hb; try apply Hx; apply Hy.
Qed.
Lemma ha_boolean_nodes vs ns : Forall flags_ok ns -> forall c, Inv c -> Forall2 (has_node c) vs ns ->
  ha (boolean_nodes F vs) c (fun _ _ => True).
Proof.
  revert vs. induction ns as [|n ns IH]; intros vs HF c HI HN; inversion HN as [|v ? vs' ? K1 K2]; subst; cbn [boolean_nodes].
  - now apply hr.
  - inversion HF as [|? ? F1 F2]; subst. clear HN. destruct K1 as [_ [_ [K3 K4]]].
    assert (B : boolean (fofN (n_left F n) : F) /\ boolean (fofN (n_right F n) : F) /\ boolean (fofN (n_left F n) + fofN (n_right F n) : F)).
    { destruct F1 as [[-> ->]|[[-> ->]|[-> ->]]]; rewrite ?fofN_0, ?fofN_1; split; [|split| |split| |split]; unfold boolean; auto;
      first [left; ring|right; ring]. }
    destruct B as [B1 [B2 B3]].
    eapply hb; [eapply (ha_boolean_gate F c); eassumption|]. intros u1 c1 I1 E1 _. lift E1.
    eapply hb; [eapply (ha_boolean_gate F c1); eassumption|]. intros u2 c2 I2 E2 _. lift E2.
    eapply hb; [eapply (ha_add F c2); eassumption|]. intros s c3 I3 E3 Hs. lift E3.
    eapply hb; [eapply (ha_boolean_gate F c3); eassumption|]. intros u4 c4 I4 E4 _. lift E4.
    apply IH; assumption.
Qed.
Definition payer_ok (p : payer_w F) : Prop := Forall flags_ok (p_path F p) /\ (p_amount F p < 2 ^ 64)%N.
Lemma ha_add_payer p c : Inv c -> payer_ok p -> ha (add_payer F p) c (fun v c' => has_payer c' v p).
Proof.
  intros HI [HF _]. unfold add_payer, add_merkle_path_variables.
  eapply hb; [apply (ha_new F c _ HI)|]. intros a c1 I1 E1 Ha. lift E1.
  eapply hb; [apply (ha_new F c1 _ I1)|]. intros b c2 I2 E2 Hb. lift E2.
  eapply hb; [apply (ha_new F c2 _ I2)|]. intros x c3 I3 E3 Hx. lift E3.
  eapply (hb F _ _ _ (fun v c' => Forall2 (has_node c') v (p_path F p))).
  { eapply hb; [apply (ha_mapM _ has_node (fun _ => True)); [exact has_node_mono|exact ha_new_node|exact I3|]|].
    { clear. induction (p_path F p); constructor; auto. }
    intros vs c4 I4 E4 Hvs. eapply hb; [eapply ha_boolean_nodes; eassumption|]. intros u c5 I5 E5 _. lift E5.
    now apply hr. }
  intros vs c4 I4 E4 Hvs. lift E4.
  eapply hb; [apply (ha_new F c4 _ I4)|]. intros y c5 I5 E5 Hy. lift E5.
  apply hr; [exact I5|]. unfold has_payer. cbn. auto 6.
Qed.
Lemma ha_new_pk pk c : Inv c -> ha (new_pk F pk) c (fun v c' => has_pk c' v pk).
Proof.
  intros HI. destruct pk as [[x0 x1] x2]. unfold new_pk.
  eapply hb; [apply (ha_new F c _ HI)|]. intros a c1 I1 E1 Ha. lift E1.
  eapply hb; [apply (ha_new F c1 _ I1)|]. intros b c2 I2 E2 Hb. lift E2.
  eapply hb; [apply (ha_new F c2 _ I2)|]. intros x c3 I3 E3 Hx. lift E3.
  apply hr; [exact I3|]. unfold has_pk. auto.
Qed.
Lemma ha_new_sk sk c : Inv c -> ha (new_sk F sk) c (fun v c' => has_sk c' v sk).
Proof.
  intros HI. unfold new_sk.
  eapply hb; [apply (ha_new F c _ HI)|]. intros a c1 I1 E1 Ha. lift E1.
  eapply hb; [apply (ha_new F c1 _ I1)|]. intros b c2 I2 E2 Hb. lift E2.
  apply hr; [exact I2|]. split; assumption.
Qed.
Lemma ha_add_payee q c : Inv c -> True -> ha (add_payee F q) c (fun v c' => has_payee c' v q).
Proof.
  intros HI _. unfold add_payee.
  eapply hb; [apply (ha_new F c _ HI)|]. intros a c1 I1 E1 Ha. lift E1.
  eapply hb; [apply (ha_new F c1 _ I1)|]. intros b c2 I2 E2 Hb. lift E2.
  eapply hb; [apply (ha_new F c2 _ I2)|]. intros x c3 I3 E3 Hx. lift E3.
  eapply hb; [apply (ha_new_pk _ _ I3)|]. intros y c4 I4 E4 Hy. lift E4.
  apply hr; [exact I4|]. unfold has_payee. cbn. auto 6.
Qed.
Lemma range64 (n : N) : (n < 2 ^ 64)%N -> (toZ (fofN n : F) < 2 ^ Z.of_nat 64)%Z.
Proof.
  intros Hn. unfold fofN. rewrite toZ_fofZ, Z.mod_small by lia. change (Z.of_nat 64) with 64%Z. lia.
Qed.

(** The loops. *)
Lemma ha_payer_cs pk sk vpk vsk root rv p v c : Inv c -> has_pk c pk vpk -> has_sk c sk vsk -> has_payer c v p -> payer_ok p ->
  in_tree F hash vpk rv (spend_val p) ->
  match root with Some r => has c r rv | None => True end ->
  ha (payer_cs F P e pk sk root v) c (fun root' c' => exists r, root' = Some r /\ has c' r rv).
Proof.
  intros HI Hpk Hsk Hv [HF HA] HT Hroot. destruct Hv as [V1 [V2 [V3 [V4 V5]]]]. unfold payer_cs.
  eapply hb; [eapply ha_commit; eassumption|]. intros com c1 I1 E1 Hcom.
  assert (Hroot1 : match root with Some r => has c1 r rv | None => True end) by (destruct root; [eapply has_mono; eassumption|exact I]).
  clear Hroot. lift E1.
  eapply hb; [eapply (ha_linear_combine F c1); [exact I1|exact V1|exact V2|apply (has_zero F c1 I1)|apply (has_zero F c1 I1)]|].
  intros ua c2 I2 E2 Hua.
  assert (Hroot2 : match root with Some r => has c2 r rv | None => True end) by (destruct root; [eapply has_mono; eassumption|exact I]).
  clear Hroot1. lift E2.
  eapply hb; [eapply ha_nullify; eassumption|]. intros nf c3 I3 E3 [xn Hnf].
  assert (Hroot3 : match root with Some r => has c3 r rv | None => True end) by (destruct root; [eapply has_mono; eassumption|exact I]).
  clear Hroot2. lift E3.
  eapply hb; [eapply ha_merkle; [exact I3|exact V1|exact Hcom|exact V5|exact HF]|]. intros tmp c4 I4 E4 Htmp.
  assert (Hroot4 : match root with Some r => has c4 r rv | None => True end) by (destruct root; [eapply has_mono; eassumption|exact I]).
  clear Hroot3. lift E4.
  assert (Et : root_of F hash (fofN (p_uid F p)) (commitment F hash vpk (p_blind F p) (fofN (p_amount F p)) (p_type F p)) (map step_val (p_path F p)) = rv)
    by exact HT. rewrite Et in Htmp.
  eapply hb; [eapply (ha_range_check F c4); [exact I4|lia|exact V2|now apply range64]|]. intros bs c5 I5 E5 _.
  assert (Hroot5 : match root with Some r => has c5 r rv | None => True end) by (destruct root; [eapply has_mono; eassumption|exact I]).
  clear Hroot4. lift E5.
  eapply (hb F _ _ _ (fun root' c' => exists r, root' = Some r /\ has c' r rv)).
  { destruct root as [r|].
    - eapply hb; [eapply (ha_equal F c5); eassumption|]. intros u c6 I6 E6 _. lift E6. apply hr; [exact I6|]. eauto.
    - apply hr; [exact I5|]. eauto. }
  intros root' c6 I6 E6 [r [-> Hr]]. lift E6.
  eapply hb; [eapply (ha_pub F c6); eassumption|]. intros u c7 I7 E7 _. lift E7. apply hr; [exact I7|]. eauto.
Qed.
Lemma ha_payers pk sk vpk vsk rv : forall l vs root c, Inv c -> has_pk c pk vpk -> has_sk c sk vsk -> Forall2 (has_payer c) vs l ->
  Forall payer_ok l -> Forall (fun p => in_tree F hash vpk rv (spend_val p)) l ->
  match root with Some r => has c r rv | None => l <> [] end ->
  ha (payers_cs F P e pk sk root vs) c (fun root' c' => exists r, root' = Some r /\ has c' r rv).
Proof.
  unfold payers_cs.
  induction l as [|p l IH]; intros vs root c HI Hpk Hsk HV HO HT Hroot; inversion HV as [|v ? vs' ? K1 K2]; subst; cbn [foldM].
  - destruct root as [r|]; [|now contradiction Hroot]. apply hr; [exact HI|]. eauto.
  - inversion HO; inversion HT; subst. clear HV.
    eapply hb; [eapply ha_payer_cs; try eassumption; destruct root; [exact Hroot|exact I]|].
    intros root' c1 I1 E1 [r [-> Hr]]. clear Hroot. lift E1. eapply IH; try eassumption.
Qed.
Lemma ha_payees : forall l vs u c, Inv c -> Forall2 (has_payee c) vs l -> Forall (fun q => (q_amount F q < 2 ^ 64)%N) l ->
  ha (foldM F (payee_cs F P e) u vs) c (fun _ _ => True).
Proof.
  induction l as [|q l IH]; intros vs u c HI HV HO; inversion HV as [|v ? vs' ? K1 K2]; subst; cbn [foldM].
  - now apply hr.
  - inversion HO; subst. clear HV. destruct K1 as [V1 [V2 [V3 V4]]].
    eapply (hb F _ _ _ (fun _ _ => True)).
    + unfold payee_cs. eapply hb; [eapply ha_commit; eassumption|]. intros com c1 I1 E1 Hcom. lift E1.
      eapply hb; [eapply (ha_range_check F c1); [exact I1|lia|exact V1|now apply range64]|]. intros bs c2 I2 E2 _. lift E2.
      eapply (ha_pub F c2); eassumption.
    + intros u' c1 I1 E1 _. lift E1. apply IH; assumption.
Qed.

(** Given variables holding the keys, the honest run of [folding] publishes [V]. *)
Definition publishes (folding : pk_v -> sk_v -> CS F unit) (k : keypair F) (V : list F) : Prop :=
  forall pk sk c, Inv c -> has_pk c pk (kp_pk F k) -> has_sk c sk (kp_sk F k) ->
  pub_values (val (snd (folding pk sk c))) (snd (folding pk sk c)) = pub_values (val c) c ++ V.
Lemma records_split folding k payers payees fee c :
  let r0 := xfr_records F P e (fun _ _ => ret tt) payers payees k fee c in
  xfr_records F P e folding payers payees k fee c = (fst r0, snd (folding (ly_pk (fst r0)) (ly_sk (fst r0)) (snd r0))).
Proof. unfold xfr_records. rewrite !bnd_eq. reflexivity. Qed.

Section Fold.
Context (folding : pk_v -> sk_v -> CS F unit) (k : keypair F).
Context (Hfold : forall pk sk c, Inv c -> has_pk c pk (kp_pk F k) -> has_sk c sk (kp_sk F k) -> ha (folding pk sk) c (fun _ _ => True)).

Definition layout_has c (ly : layout) payers payees (rv : F) (fee : N) : Prop :=
  Forall2 (has_payer c) (ly_payers ly) payers /\ Forall2 (has_payee c) (ly_payees ly) payees /\
  has_pk c (ly_pk ly) (kp_pk F k) /\ has_sk c (ly_sk ly) (kp_sk F k) /\ has c (ly_root ly) rv /\ has c (ly_fee ly) (fofN fee).
Lemma ha_records payers payees fee rv : payers <> [] -> Forall payer_ok payers ->
  Forall (fun q => (q_amount F q < 2 ^ 64)%N) payees ->
  Forall (fun p => in_tree F hash (kp_pk F k) rv (spend_val p)) payers ->
  forall c, Inv c -> ha (xfr_records F P e folding payers payees k fee) c (fun ly c' => layout_has c' ly payers payees rv fee).
Proof.
  intros Hne HO HQ HT c HI. unfold xfr_records.
  eapply hb; [apply (ha_mapM _ has_payer payer_ok); [exact has_payer_mono|exact ha_add_payer|exact HI|exact HO]|].
  intros pv c1 I1 E1 Hpv. lift E1.
  eapply hb; [apply (ha_mapM _ has_payee (fun _ => True)); [exact has_payee_mono|exact ha_add_payee|exact I1|]|].
  { clear. induction payees; constructor; auto. }
  intros qv c2 I2 E2 Hqv. lift E2.
  eapply hb; [apply (ha_new_pk _ _ I2)|]. intros pk c3 I3 E3 Hpk. lift E3.
  eapply hb; [apply (ha_new_sk _ _ I3)|]. intros sk c4 I4 E4 Hsk. lift E4.
  eapply hb; [eapply ha_payers; try eassumption|]. intros root c5 I5 E5 [r [-> Hr]]. lift E5.
  eapply hb; [eapply (ha_pub F c5); eassumption|]. intros u1 c6 I6 E6 _. lift E6.
  eapply hb; [eapply ha_payees; eassumption|]. intros u2 c7 I7 E7 _. lift E7.
  eapply hb; [apply (ha_new F c7 _ I7)|]. intros fv c8 I8 E8 Hfv. lift E8.
  eapply hb; [eapply (ha_pub F c8); eassumption|]. intros u3 c9 I9 E9 _. lift E9.
  eapply hb; [apply Hfold; eassumption|]. intros u4 c10 I10 E10 _. lift E10.
  apply hr; [exact I10|]. unfold layout_has. cbn. auto 6.
Qed.

(** Reading the layout. *)
Lemma node_side c v n : has_node c v n -> flags_ok n -> side_of F (val c) v = step_val n.
Proof.
  intros [[_ H1] [[_ H2] [[_ H3] [_ H4]]]] HF. unfold side_of, step_val. rewrite H1, H2, H3, H4.
  destruct HF as [[-> ->]|[[-> ->]|[-> ->]]]; rewrite ?fofN_0, ?fofN_1; cbn [N.eqb Pos.eqb];
  repeat match goal with |- context [f_dec ?a 0] => destruct (f_dec a 0) as [?|?] end; try congruence;
  exfalso; eapply f1_neq_0; eassumption.
Qed.
Lemma payers_read c vs l : Forall2 (has_payer c) vs l -> Forall payer_ok l -> map (spend_of F (val c)) vs = map spend_val l.
Proof.
  induction 1 as [|v p vs l [H1 [H2 [H3 [H4 H5]]]] _ IH]; intros HO; [reflexivity|]. inversion HO as [|? ? [O1 _] O2]; subst.
  cbn [map]. rewrite (IH O2). f_equal. unfold spend_of, spend_val. destruct H1 as [_ ->], H2 as [_ ->], H3 as [_ ->], H4 as [_ ->].
  f_equal. clear -H5 O1. induction H5 as [|v1 n1 vs1 l1 K _ IH]; [reflexivity|]. inversion O1; subst. cbn [map]. rewrite IH by assumption.
  f_equal. now apply node_side.
Qed.
Lemma pk_read c v pk : has_pk c v pk -> vpk F (val c) v = pk.
Proof. destruct v as [[a b] x], pk as [[p q] r]. intros [[_ H1] [[_ H2] [_ H3]]]. cbn. now rewrite H1, H2, H3. Qed.
Lemma sk_read c v sk : has_sk c v sk -> vsk F (val c) v = sk.
Proof. destruct v as [a b], sk as [p q]. intros [[_ H1] [_ H2]]. unfold vsk. cbn in *. now rewrite H1, H2. Qed.
Lemma payees_read c vs l : Forall2 (has_payee c) vs l -> map (output_of F (val c)) vs = map output_val l.
Proof.
  induction 1 as [|v p vs l [H1 [H2 [H3 H4]]] _ IH]; [reflexivity|].
  cbn [map]. rewrite IH. f_equal. unfold output_of, output_val. rewrite (pk_read _ _ _ H4).
  destruct H1 as [_ ->], H2 as [_ ->], H3 as [_ ->]. reflexivity.
Qed.

Context (Rf : (nat -> F) -> pk_v -> sk_v -> list F -> Prop)
  (Sfold : forall pk sk, soundp F (folding pk sk) (fun _ => True) (fun w _ vs => Rf w pk sk vs)).

(** The public values of the honest run before asset mixing. *)
Lemma records_public payers payees fee rv : payers <> [] -> Forall payer_ok payers ->
  Forall (fun q => (q_amount F q < 2 ^ 64)%N) payees ->
  Forall (fun p => in_tree F hash (kp_pk F k) rv (spend_val p)) payers ->
  let r := xfr_records F P e folding payers payees k fee (cs_new F) in
  Inv (snd r) /\ layout_has (snd r) (fst r) payers payees rv fee /\
  exists fv, Rf (val (snd r)) (ly_pk (fst r)) (ly_sk (fst r)) fv /\
    pub_values (val (snd r)) (snd r) =
      public F hash (kp_pk F k) (kp_sk F k) rv (map spend_val payers) (map output_val payees) (fofN fee) ++ fv.
Proof.
  intros Hne HO HQ HT r.
  assert (I0 : Inv (cs_new F)).
  { unfold Inv. cbn. repeat split; try lia; try constructor. }
  destruct (ha_records payers payees fee rv Hne HO HQ HT (cs_new F) I0) as [I1 [_ L]]. fold r in I1, L.
  split; [exact I1|]. split; [exact L|].
  destruct (records_sound F P HP e He Hbig folding Rf Sfold payers payees k fee Hne (cs_new F)) as [_ [_ HR]]; [cbn; lia|].
  fold r in HR. pose proof I1 as [_ [_ [C [_ Hs]]]]. destruct (HR (val (snd r)) Hs) as [_ [vs [V1 V2]]].
  destruct (V2 (proj1 C)) as [fv [V3 [V4 _]]]. exists fv. split; [exact V3|]. rewrite V1, V4. cbn.
  destruct L as [L1 [L2 [L3 [L4 [L5 L6]]]]].
  rewrite (payers_read _ _ _ L1 HO), (payees_read _ _ _ L2), (pk_read _ _ _ L3), (sk_read _ _ _ L4).
  destruct L5 as [_ ->], L6 as [_ ->]. reflexivity.
Qed.

Lemma knownh_in c ly payers : Forall2 (has_payer c) (ly_payers ly) payers ->
  knownh F c (in_pairs ly) (map (fun p => (p_type F p, fofN (p_amount F p))) payers).
Proof.
  unfold in_pairs, knownh. induction 1 as [|v p vs l [H1 [H2 [H3 _]]] _ IH]; cbn [map]; constructor; [split; assumption|exact IH].
Qed.
Lemma knownh_out c ly payees : Forall2 (has_payee c) (ly_payees ly) payees ->
  knownh F c (out_pairs ly) (map (fun p => (q_type F p, fofN (q_amount F p))) payees).
Proof.
  unfold out_pairs, knownh. induction 1 as [|v p vs l [H1 [_ [H3 _]]] _ IH]; cbn [map]; constructor; [split; assumption|exact IH].
Qed.

End Fold.

(** The same with a gadget whose public values are known. *)
Lemma records_published folding k V payers payees fee rv : publishes folding k V -> payers <> [] -> Forall payer_ok payers ->
  Forall (fun q => (q_amount F q < 2 ^ 64)%N) payees ->
  Forall (fun p => in_tree F hash (kp_pk F k) rv (spend_val p)) payers ->
  let h := snd (xfr_records F P e folding payers payees k fee (cs_new F)) in
  pub_values (val h) h = public F hash (kp_pk F k) (kp_sk F k) rv (map spend_val payers) (map output_val payees) (fofN fee) ++ V.
Proof.
  intros HV Hne HO HQ HT. cbn zeta. rewrite records_split. cbn [snd].
  destruct (records_public (fun _ _ => ret tt) k) with (Rf := fun (_ : nat -> F) (_ : pk_v) (_ : sk_v) (vs : list F) => vs = [])
    (payers := payers) (payees := payees) (fee := fee) (rv := rv) as [I1 [L [fv [Hf E]]]]; try assumption.
  - intros pk sk c HI _ _. now apply hr.
  - intros pk sk. apply spr; auto.
  - rewrite Hf, app_nil_r in E. destruct L as [_ [_ [L3 [L4 _]]]]. rewrite (HV _ _ _ I1 L3 L4). now rewrite E.
Qed.

(** ** Forgery *)
Section Forge.
Context (folding : pk_v -> sk_v -> CS F unit) (k : keypair F).
Context (Hfold : forall pk sk c, Inv c -> has_pk c pk (kp_pk F k) -> has_sk c sk (kp_sk F k) -> ha (folding pk sk) c (fun _ _ => True)).
Context (Rf : (nat -> F) -> pk_v -> sk_v -> list F -> Prop)
  (Sfold : forall pk sk, soundp F (folding pk sk) (fun _ => True) (fun w _ vs => Rf w pk sk vs)).
Context (Afold : forall pk sk, ok_pk not1 pk -> ok_sk not1 sk -> emits F (avoids_one F) (folding pk sk) (fun _ => True)).
Lemma e_records payers payees fee : payers <> [] ->
  emits F (avoids_one F) (xfr_records F P e folding payers payees k fee) (fun _ => True).
Proof.
  intros Hne. unfold xfr_records.
  eapply eb; [apply em_avoids, (e_mapM F _ _ (ok_payer not1))|].
  { intros a. eapply ew; [apply (e_add_payer F not1 not1_0 not1_2)|]. intros v [_ H]. exact H. }
  intros pv [Lp Hpv].
  eapply eb; [apply em_avoids, (e_mapM F _ _ (ok_payee not1)); intros a; apply (e_add_payee F not1 not1_2)|].
  intros qv [_ Hqv].
  eapply eb; [apply em_avoids, (e_new_pk F not1 not1_2)|]. intros pk Hpk.
  eapply eb; [apply em_avoids, (e_new_sk F not1 not1_2)|]. intros sk Hsk.
  eapply (eb _ _ _ _ (fun root => match root with Some r => not1 r | None => True end)).
  { unfold payers_cs. assert (Hr : match @None nat with Some r => not1 r | None => True end) by exact I. revert Hr.
    generalize (@None nat). clear Lp. induction Hpv as [|p pv [K1 [K2 [K3 [K4 K5]]]] _ IH]; intros root Hr; cbn [foldM]; [now apply er|].
    eapply (eb _ _ _ _ (fun root => match root with Some r => not1 r | None => True end)); [|intros root'; apply IH].
    unfold payer_cs.
    eapply eb; [apply em_avoids, (e_commit F P e not1 not1_0 not1_2); assumption|]. intros com Hcom.
    eapply eb; [apply em_avoids, (e_lc F not1 not1_2); try assumption; apply not1_0|]. intros ua Hua.
    eapply eb; [apply em_avoids, (e_nullify F P e not1 not1_0 not1_2); assumption|]. intros nf Hnf.
    eapply eb; [apply em_avoids, (e_merkle F P e not1 not1_0 not1_2); assumption|]. intros tmp Htmp.
    eapply eb; [apply em_avoids, (e_range F not1 not1_0 not1_2); assumption|]. intros bs _.
    eapply (eb _ _ _ _ (fun root => match root with Some r => not1 r | None => True end)).
    { destruct root as [r|]; [|now apply er]. eapply eb; [apply em_avoids, (e_equal F not1 not1_0); assumption|]. intros u _. now apply er. }
    intros root' Hroot'. eapply eb; [now apply em_pi|]. intros u _. now apply er. }
  intros root Hroot. cbn zeta.
  eapply eb; [apply em_pi; destruct root; [exact Hroot|apply not1_0]|]. intros u1 _.
  eapply (eb _ _ _ _ (fun _ => True)).
  { unfold payees_cs. generalize tt. induction Hqv as [|q qv [K1 [K2 [K3 K4]]] _ IH]; intros u; cbn [foldM]; [now apply er|].
    eapply (eb _ _ _ _ (fun _ => True)); [|intros u' _; apply IH]. unfold payee_cs.
    eapply eb; [apply em_avoids, (e_commit F P e not1 not1_0 not1_2); assumption|]. intros com Hcom.
    eapply eb; [apply em_avoids, (e_range F not1 not1_0 not1_2); assumption|]. intros bs _.
    now apply em_pi. }
  intros u2 _. eapply eb; [apply e_new|]. intros fv Hfv.
  eapply eb; [apply em_pi, not1_2, Hfv|]. intros u3 _.
  eapply eb; [apply Afold; assumption|]. intros u4 _. now apply er.
Qed.

Theorem circuit_forgeable payers payees fee rv ft : payers <> [] -> Forall payer_ok payers ->
  Forall (fun q => (q_amount F q < 2 ^ 64)%N) payees ->
  Forall (fun p => in_tree F hash (kp_pk F k) rv (spend_val p)) payers ->
  exists w fv, let r := xfr_cs F P e folding payers payees k fee ft (cs_new F) in
    sat (snd r) w /\ w 0%nat = 0 /\
    pub_values w (snd r) =
      public F hash (kp_pk F k) (kp_sk F k) rv (map spend_val payers) (map output_val payees) (fofN fee) ++ fv /\
    forall V, publishes folding k V -> fv = V.
Proof.
  intros Hne HO HQ HT. destruct (records_public folding k Hfold Rf Sfold payers payees fee rv Hne HO HQ HT) as [I1 [L [fv [_ V]]]].
  destruct (e_records payers payees fee Hne (cs_new F)) as [gs [E1 [E2 _]]]; [cbn; lia|].
  unfold xfr_cs. rewrite !bnd_eq. cbn [ret snd].
  set (r1 := xfr_records F P e folding payers payees k fee (cs_new F)) in *.
  set (c1 := snd r1) in *. set (ly := fst r1) in *.
  pose proof I1 as [N0 [N2 [C [W S]]]]. destruct L as [L1 [L2 [L3 [L4 [L5 L6]]]]].
  destruct (forgery F (in_pairs ly) (out_pairs ly) ft (ly_fee ly) c1 (val c1)) as [w [Hw Ha]].
  - exact W.
  - rewrite E1. cbn. rewrite app_nil_r. exact E2.
  - exact S.
  - apply C.
  - exact N2.
  - unfold in_pairs, known. rewrite Forall_map. revert L1. clear. generalize (ly_payers ly), c1, payers. intros lp cc pp L1. induction L1 as [|v p l l' [H1 [H2 [H3 _]]] _ IH]; constructor; [|exact IH].
    cbn. split; [apply H3|apply H2].
  - unfold out_pairs, known. rewrite Forall_map. revert L2. clear. generalize (ly_payees ly), c1, payees. intros lp cc pp L2. induction L2 as [|v p l l' [H1 [_ [H3 _]]] _ IH]; constructor; [|exact IH].
    cbn. split; [apply H3|apply H1].
  - apply L6.
  - exists w, fv. split; [exact Hw|]. split; [rewrite Ha by lia; apply C|]. split; [|intros vs Hv; apply (app_inv_head (public F hash (kp_pk F k) (kp_sk F k) rv (map spend_val payers) (map output_val payees) (fofN fee))); rewrite <- V; now apply records_published].
    destruct (e_mixing F (in_pairs ly) (out_pairs ly) ft (ly_fee ly) c1) as [g2 [E3 [E4 _]]]; [exact N2|].
    rewrite (pub_values_app F c1 _ g2 w E3), silent_pub.
    + rewrite app_nil_r, <- V. unfold pub_values.
      assert (G : forall g, In g (gates c1) -> pub_of w g = pub_of (val c1) g).
      { intros g Hg. unfold gates in Hg. apply in_rev in Hg.
        assert (A1 : avoids_one F g). { rewrite E1 in Hg. cbn in Hg. rewrite app_nil_r in Hg. rewrite Forall_forall in E2. now apply E2. }
        rewrite Forall_forall in W. specialize (W g Hg). destruct W as [_ W]. destruct A1 as [_ [_ [_ [_ [_ A1]]]]].
        unfold pub_of. destruct (g_pub g) as [v|]; [|reflexivity]. rewrite Ha; [reflexivity|exact W|congruence]. }
      revert G. generalize (gates c1). induction l as [|g l IH]; intros G; [reflexivity|]. cbn.
      rewrite (G g (or_introl eq_refl)), IH; [reflexivity|]. intros g' Hg'. apply G. now right.
    + eapply Forall_impl; [|exact E4]. intros g [G _]. exact G.
Qed.
End Forge.
End Honest.
