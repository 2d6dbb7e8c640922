(** Proofs of WireProps: the variables the circuits allocate, and what they say of them. *)
From Coq Require Import List NArith ZArith Bool Lia ZifyBool ZifyNat ZifyN Field.
From Verif Require Import Base Field PField Power UtilsModel TurboModel TurboSpec TurboProofs TurboHonest TurboKit TurboEmit
  RescueModel RescueSpec RescueProofs XfrModel MixModel MixSpec MixProofs MixLemmas AxfrModel AxfrSpec AxfrProofs AxfrHonest AxfrLemmas
  FoldModel FoldLemmas SimModel SimCircuit AfoldWhole NoteModel NoteProofs InspModel InspSpec InspProofs WireSpec.
Import ListNotations.
Local Open Scope F_scope.

Section Wires.
Context (F : PField) (P : rescue_instance F) (HP : rescue_ok F P) (e : N) (He : exp_inv F 5 e).
Context (Hbig : (2 ^ 64 < pchar F)%Z).
Add Field Fwire : (f_th F).
Implicit Types (c : tcs F) (w : nat -> F).
Notation hash := (AxfrModel.hash F P).
Notation plain_sil := (plain_sil F).

(** ** Positions *)
Definition node_pos (b : nat) : node_v := mkNodeV b (b + 1) (b + 2) (b + 3).
Definition payer_pos (b d : nat) : payer_v := mkPayerV b (b + 1) (b + 3 + 5 * d) (map (fun i => node_pos (b + 3 + 4 * i)) (seq 0 d)) (b + 2).
Definition pk_pos (b : nat) : pk_v := (b, (b + 1)%nat, (b + 2)%nat).
Definition sk_pos (b : nat) : sk_v := (b, (b + 1)%nat).
Definition payee_pos (b : nat) : payee_v := mkPayeeV b (b + 1) (b + 2) (pk_pos (b + 3)).
Definition puts {A} (m : CS F A) (a : nat -> A) (n : nat) : Prop := forall c, fst (m c) = a (nvars c) /\ nvars (snd (m c)) = (nvars c + n)%nat.
Lemma puts_bind {A B} (m : CS F A) (f : A -> CS F B) a n (b : nat -> B) n' : puts m a n ->
  (forall c k, nvars c = (k + n)%nat -> fst (f (a k) c) = b k /\ nvars (snd (f (a k) c)) = (k + n + n')%nat) -> puts (bnd m f) b (n + n').
Proof.
  intros Hm Hf c. rewrite bnd_eq. destruct (Hm c) as [E1 E2]. rewrite E1. destruct (Hf (snd (m c)) (nvars c) E2) as [E3 E4].
  split; [exact E3|]. rewrite E4. lia.
Qed.
Lemma puts_new x : puts (new_variable F x) (fun b => b) 1.
Proof. intros c. split; [reflexivity|]. cbn. lia. Qed.
Lemma puts_pk pk : puts (new_pk F pk) pk_pos 3.
Proof.
  destruct pk as [[x y] z]. intros c. unfold new_pk. rewrite !bnd_eq. cbn [new_variable fst snd nvars ret]. unfold pk_pos.
  split; [repeat f_equal; lia|lia].
Qed.
Lemma puts_sk sk : puts (new_sk F sk) sk_pos 2.
Proof.
  intros c. unfold new_sk. rewrite !bnd_eq. cbn [new_variable fst snd nvars ret]. unfold sk_pos. split; [f_equal; lia|lia].
Qed.
Lemma puts_payee q : puts (add_payee F q) payee_pos 6.
Proof.
  destruct q as [a b t [[x y] z]]. intros c. unfold add_payee, new_pk. cbn [q_amount q_blind q_type q_pk]. rewrite !bnd_eq. cbn [new_variable fst snd nvars ret].
  unfold payee_pos, pk_pos. split; [f_equal; try lia; repeat f_equal; lia|lia].
Qed.
Lemma puts_node n : puts (new_node F n) node_pos 4.
Proof.
  intros c. unfold new_node. rewrite !bnd_eq. cbn [new_variable fst snd nvars ret]. unfold node_pos. split; [f_equal; lia|lia].
Qed.
Lemma puts_map {A B} (f : A -> CS F B) (a : nat -> B) n l : (forall x, puts (f x) a n) ->
  puts (RescueModel.mapM F f l) (fun b => map (fun i => a (b + n * i)%nat) (seq 0 (length l))) (n * length l).
Proof.
  intros Hf. induction l as [|x l IH]; intros c.
  - cbn. split; [reflexivity|lia].
  - cbn [RescueModel.mapM length seq map]. rewrite !bnd_eq. cbn [ret fst snd]. destruct (Hf x c) as [E1 E2]. destruct (IH (snd (f x c))) as [E3 E4].
    rewrite E1, E3, E4, E2. split; [|lia]. f_equal; [f_equal; lia|]. rewrite <- seq_shift, map_map. apply map_ext. intros i. f_equal. lia.
Qed.
Lemma boolean_nodes_vars ns c : nvars (snd (boolean_nodes F ns c)) = (nvars c + length ns)%nat.
Proof.
  revert c. induction ns as [|n ns IH]; intros c; [cbn; lia|]. cbn [boolean_nodes length]. rewrite !bnd_eq, IH.
  unfold add. rewrite !bnd_eq. cbn. lia.
Qed.
Lemma puts_path l : puts (add_merkle_path_variables F l) (fun b => map (fun i => node_pos (b + 4 * i)) (seq 0 (length l))) (5 * length l).
Proof.
  intros c. unfold add_merkle_path_variables. rewrite !bnd_eq. cbn [ret fst snd]. destruct (puts_map (new_node F) node_pos 4 l puts_node c) as [E1 E2].
  rewrite boolean_nodes_vars, E2, E1, map_length, seq_length. split; [reflexivity|lia].
Qed.
Lemma puts_payer p : puts (add_payer F p) (fun b => payer_pos b (length (p_path F p))) (spend_width (length (p_path F p))).
Proof.
  intros c. unfold add_payer. rewrite !bnd_eq. cbn [ret fst snd].
  set (c1 := snd (new_variable F (p_blind F p) (snd (new_variable F (fofN (p_amount F p)) (snd (new_variable F (fofN (p_uid F p)) c)))))).
  assert (N1 : nvars c1 = (nvars c + 3)%nat) by (cbn; lia).
  destruct (puts_path (p_path F p) c1) as [E1 E2]. rewrite E1, N1. unfold payer_pos, spend_width. cbn [new_variable fst snd nvars]. rewrite E2, N1.
  split; [f_equal; lia|lia].
Qed.
Fixpoint payers_pos (b : nat) (ds : list nat) : list payer_v :=
  match ds with [] => [] | d :: ds' => payer_pos b d :: payers_pos (b + spend_width d) ds' end.
Lemma puts_payers l : let ds := map (fun p => length (p_path F p)) l in
  puts (RescueModel.mapM F (add_payer F) l) (fun b => payers_pos b ds) (spends_width ds).
Proof.
  induction l as [|p l IH]; intros ds c; unfold ds.
  - cbn. split; [reflexivity|lia].
  - cbn [RescueModel.mapM map payers_pos]. rewrite !bnd_eq. cbn [ret fst snd]. destruct (puts_payer p c) as [E1 E2]. destruct (IH (snd (add_payer F p c))) as [E3 E4].
    rewrite E1, E3, E4, E2. unfold spends_width. cbn [map list_sum fold_right]. split; [reflexivity|]. unfold list_sum. lia.
Qed.
(** What is read at them. *)
Lemma read_payer w b d : spend_of F w (payer_pos b d) = spend_at w b d.
Proof. unfold spend_of, spend_at, payer_pos. cbn [pv_uid pv_amount pv_type pv_blind pv_path]. f_equal. rewrite map_map. reflexivity. Qed.
Lemma read_payers w b ds : map (spend_of F w) (payers_pos b ds) = spends_at w b ds.
Proof. revert b. induction ds as [|d ds IH]; intros b; [reflexivity|]. cbn [payers_pos spends_at map]. now rewrite read_payer, IH. Qed.
Lemma read_payees w b n : map (output_of F w) (map (fun i => payee_pos (b + 6 * i)) (seq 0 n)) = outputs_at w b n.
Proof. rewrite map_map. reflexivity. Qed.

(** ** Shielding *)
Lemma shield_wires q w : let c := snd (shield_cs F P e q (cs_new F)) in sat c w -> w 0%nat = 0 ->
  pub_values w c = [w 2%nat; w 3%nat; commitment F hash (key_at w 5) (w 4%nat) (w 2%nat) (w 3%nat)].
Proof.
  intros c Hs Z. unfold c, shield_cs in *. clear c.
  destruct q as [a b t [[x y] z]]. cbn [q_amount q_type q_blind q_pk] in *. unfold new_pk in *.
  rewrite !bnd_eq in *. cbn [new_variable prepare_pi_variable fst snd nvars ret cs_new] in *.
  match type of Hs with context [commit_in_cs F P e _ _ _ _ ?cc] => set (c := cc) in * end.
  assert (S1 : soundp F (bnd (commit_in_cs F P e 4 2 3 (5, 6, 7)%nat) (fun com => prepare_pi_variable F com)) (fun _ => True)
    (fun w _ vs => vs = [hash (hash (w 4%nat) (w 2%nat) (w 3%nat) (w 5%nat)) (w 6%nat) (w 7%nat) (w 0%nat)])).
  { eapply spb.
    { eapply (sp_of F (plain F any) _ (fun _ => True) _ plain_sil); [|apply (commit_sound F P HP e He)].
      eapply ew; [apply (e_commit F P e any any0 any2); [exact I..|apply okpk_any]|auto]. }
    intros com _. eapply spw; [apply sp_pi|auto|]. cbn beta. intros u ? vs _ -> v1 [-> R1]. cbn [app]. now rewrite R1. }
  assert (Hc : (2 <= nvars c)%nat) by (cbn; lia).
  destruct (S1 c Hc) as (_ & _ & S2). rewrite bnd_eq in S2. destruct (S2 w Hs) as (_ & vs & V1 & ->).
  etransitivity; [exact V1|]. rewrite Z. reflexivity.
Qed.

(** ** Unshielding *)
Section Fold.
Context (folding : pk_v -> sk_v -> CS F unit) (Rf : (nat -> F) -> pk_v -> sk_v -> list F -> Prop)
  (Hfold : forall pk sk, soundp F (folding pk sk) (fun _ => True) (fun w _ vs => Rf w pk sk vs)).
Lemma unshield_wires p k w : let d := length (p_path F p) in let c := snd (unshield_cs F P e folding p k (cs_new F)) in
  sat c w -> w 0%nat = 0 ->
  let s := spend_at w 2 d in let pk := key_at w (outputs_base [d]) in let sk := secret_at w (outputs_base [d] + 3) in
  exists root fv, pub_values w c = [nullifier F hash pk sk s; root; sp_amount s; sp_type s] ++ fv /\ in_tree F hash pk root s /\
    Rf w (pk_pos (outputs_base [d])) (sk_pos (outputs_base [d] + 3)) fv.
Proof.
  intros d c Hs Z. unfold c, unshield_cs in *. clear c. rewrite bnd_eq in *.
  destruct (puts_payer p (cs_new F)) as [E1 N1]. cbn [cs_new nvars] in E1, N1. rewrite E1 in *. fold d in E1, N1, Hs |- *.
  remember (snd (add_payer F p (cs_new F))) as c1 eqn:Ec1.
  assert (S1 : sat c1 w -> Forall (node_ok F w) (pv_path (payer_pos 2 d)) /\ pub_values w c1 = []).
  { intros K. destruct (add_payer_sound F p (cs_new F) w) as [_ K1]; [now rewrite <- Ec1|]. rewrite E1 in K1. split; [exact K1|].
    destruct (e_add_payer F any any0 any2 p (cs_new F)) as (gs & G1 & G2 & _); [cbn; lia|]. rewrite <- Ec1 in G1. rewrite (pub_values_app F (cs_new F) c1 gs w G1), silent_pub; [reflexivity|].
    eapply Forall_impl; [|exact G2]. exact plain_sil. }
  rewrite bnd_eq in *. destruct (puts_pk (kp_pk F k) c1) as [E2 N2]. rewrite E2, N1 in *. rewrite bnd_eq in *.
  remember (snd (new_pk F (kp_pk F k) c1)) as c2 eqn:Ec2.
  destruct (puts_sk (kp_sk F k) c2) as [E3 N3]. rewrite E3, N2 in *. remember (snd (new_sk F (kp_sk F k) c2)) as c3 eqn:Ec3.
  assert (Eb : (2 + spend_width d)%nat = outputs_base [d]) by (unfold outputs_base, spends_width; cbn; lia). rewrite Eb in *.
  assert (S3 : sat c3 w -> sat c1 w /\ pub_values w c3 = pub_values w c1).
  { intros K. subst c3 c2. destruct (kp_pk F k) as [[u1 u2] u3]. split; [exact K|reflexivity]. }
  set (pk := pk_pos (outputs_base [d])) in *. set (sk := sk_pos (outputs_base [d] + 3)) in *. set (v := payer_pos 2 d) in *.
  match type of Hs with sat (snd (?m c3)) w => set (rest := m) in * end.
  assert (S : soundp F rest (fun _ => True) (fun w _ vs => w 0%nat = 0 -> Forall (node_ok F w) (pv_path v) ->
    exists root fv, vs = [nullifier F hash (vpk F w pk) (vsk F w sk) (spend_of F w v); root; w (pv_amount v); w (pv_type v)] ++ fv /\
      in_tree F hash (vpk F w pk) root (spend_of F w v) /\ Rf w pk sk fv)).
  { unfold rest.
    eapply spb.
    { eapply (sp_of F (plain F any) _ (fun _ => True) _ plain_sil); [|apply (commit_sound F P HP e He)].
      eapply ew; [apply (e_commit F P e any any0 any2); [exact I..|apply okpk_any]|auto]. }
    intros com _.
    eapply spb.
    { eapply (sp_of F (plain F any) _ (fun _ => True) _ plain_sil); [|apply linear_combine_sound].
      eapply ew; [apply (e_lc F any any2); exact I|auto]. }
    intros ua _.
    eapply spb.
    { eapply (sp_of F (plain F any) _ (fun _ => True) _ plain_sil); [|apply (nullify_sound F P HP e He)].
      eapply ew; [apply (e_nullify F P e any any0 any2); [apply oksk_any|exact I|exact I|apply okpk_any]|auto]. }
    intros nf _.
    eapply spb.
    { eapply (sp_of F (plain F any) _ (fun _ => True) _ plain_sil); [|apply (merkle_sound F P HP e He Hbig)].
      eapply ew; [apply (e_merkle F P e any any0 any2); [exact I..|apply oknodes_any]|auto]. }
    intros root _.
    eapply spb; [apply sp_pi|]. intros ? _.
    eapply spb; [apply sp_pi|]. intros ? _.
    eapply spb; [apply sp_pi|]. intros ? _.
    eapply spb; [apply sp_pi|]. intros ? _.
    eapply spw; [apply Hfold|auto|]. cbn beta.
    intros w' ? fv _ HR v1 -> v2 -> v3 -> v4 -> v5 [-> R5] v6 [-> R6] v7 [-> R7] v8 [-> R8] Z' R11.
    exists (w' root), fv. unfold pk in *. cbn [vpk pk_pos] in *. unfold zero_var in R7. rewrite Z' in R7, R8.
    split; [|split; [|exact HR]].
    - cbn [app]. f_equal. unfold nullifier, vsk. cbn [fst snd spend_of sp_uid sp_amount sp_type]. rewrite R6, R7. f_equal. f_equal. ring.
    - unfold in_tree. cbn [spend_of sp_uid sp_path]. rewrite (R5 Z' R11), R8. reflexivity. }
  assert (Hc3 : (2 <= nvars c3)%nat) by (rewrite N3; lia).
  destruct (S c3 Hc3) as (_ & _ & S4). destruct (S4 w Hs) as (K3 & vs & V1 & V2). destruct (S3 K3) as [K1 V3]. destruct (S1 K1) as [K0 V0].
  destruct (V2 Z K0) as (root & fv & -> & T & R). exists root, fv. rewrite V1, V3, V0. cbn [app].
  unfold v in *. rewrite read_payer in *. split; [reflexivity|]. split; [exact T|exact R].
Qed.

(** ** Transfers *)
Lemma transfer_wires payers payees k fee ft w :
  payers <> [] -> (Z.of_nat (length payers) * 2 ^ 64 < pchar F)%Z -> ((Z.of_nat (length payees) + 1) * 2 ^ 64 < pchar F)%Z ->
  let c := snd (xfr_cs F P e folding payers payees k fee ft (cs_new F)) in
  sat c w -> w 0%nat = 0 -> w 1%nat = 1 ->
  let ds := map (fun p => length (p_path F p)) payers in let n := length payees in
  let ins := spends_at w 2 ds in let outs := outputs_at w (outputs_base ds) n in
  let pk := key_at w (owner_base ds n) in let sk := secret_at w (owner_base ds n + 3) in
  exists root fee' fv,
    pub_values w c = public F hash pk sk root ins outs fee' ++ fv /\
    Rf w (pk_pos (owner_base ds n)) (sk_pos (owner_base ds n + 3)) fv /\
    well_formed F hash pk root ins outs /\ (u64f fee' -> conserves F ft ins outs fee').
Proof.
  intros Hne Hp Hq c Hs C0 C1 ds n ins outs pk sk. unfold c, xfr_cs in *. clear c. rewrite !bnd_eq in *. cbn [ret fst snd] in *.
  destruct (records_sound F P HP e He Hbig folding Rf Hfold payers payees k fee Hne (cs_new F)) as [_ [[S1 S2] HR]]; [cbn; lia|].
  assert (L : let ly := fst (xfr_records F P e folding payers payees k fee (cs_new F)) in
    ly_payers ly = payers_pos 2 ds /\ ly_payees ly = map (fun i => payee_pos (outputs_base ds + 6 * i)) (seq 0 n) /\
    ly_pk ly = pk_pos (owner_base ds n) /\ ly_sk ly = sk_pos (owner_base ds n + 3)).
  { clear. unfold xfr_records. rewrite !bnd_eq. cbn [ret fst snd ly_payers ly_payees ly_pk ly_sk].
    destruct (puts_payers payers (cs_new F)) as [E1 N1]. cbn [cs_new nvars] in E1, N1.
    destruct (puts_map (add_payee F) payee_pos 6 payees puts_payee (snd (RescueModel.mapM F (add_payer F) payers (cs_new F)))) as [E2 N2].
    destruct (puts_pk (kp_pk F k) (snd (RescueModel.mapM F (add_payee F) payees (snd (RescueModel.mapM F (add_payer F) payers (cs_new F)))))) as [E3 N3].
    destruct (puts_sk (kp_sk F k) (snd (new_pk F (kp_pk F k) (snd (RescueModel.mapM F (add_payee F) payees (snd (RescueModel.mapM F (add_payer F) payers (cs_new F)))))))) as [E4 _].
    rewrite E1, E2, E3, E4, N3, N2, N1. repeat split. }
  destruct L as (L1 & L2 & L3 & L4).
  set (c1 := snd (xfr_records F P e folding payers payees k fee (cs_new F))) in *.
  set (ly := fst (xfr_records F P e folding payers payees k fee (cs_new F))) in *.
  pose proof (asset_mixing_sound F _ _ _ _ c1 w Hs) as [Hs1 _].
  destruct (HR w Hs1) as [_ [vs [V1 V2]]]. destruct (V2 C0) as [fv [V3 [V4 V5]]].
  assert (Ei0 : map (spend_of F w) (ly_payers ly) = ins) by (rewrite L1; apply read_payers).
  assert (Eo0 : map (output_of F w) (ly_payees ly) = outs) by (rewrite L2; apply read_payees).
  assert (Ek : vpk F w (ly_pk ly) = pk) by (rewrite L3; reflexivity).
  assert (Esk : vsk F w (ly_sk ly) = sk) by (rewrite L4; reflexivity).
  rewrite Ei0, Eo0, Ek, ?Esk in *. exists (w (ly_root ly)), (w (ly_fee ly)), fv.
  assert (Ln : length (ly_payers ly) = length payers).
  { apply (f_equal (@length nat)) in S1. now rewrite !map_length in S1. }
  split; [|split; [|split]].
  - destruct (e_mixing F (in_pairs ly) (out_pairs ly) ft (ly_fee ly) c1) as [gs [E1 [E2 _]]].
    { destruct (records_sound F P HP e He Hbig folding Rf Hfold payers payees k fee Hne (cs_new F)) as [Hn _]; [cbn; lia|]. cbn in Hn. fold c1 in Hn. lia. }
    rewrite (pub_values_app F c1 _ gs w E1), silent_pub.
    + rewrite app_nil_r, V1. cbn. exact V4.
    + eapply Forall_impl; [|exact E2]. intros g [G _]. exact G.
  - rewrite <- L3, <- L4. exact V3.
  - exact V5.
  - intros Hfee. destruct V5 as [W1 W2].
    assert (Ei : vals w (in_pairs ly) = spent F ins).
    { rewrite <- Ei0. unfold vals, in_pairs, spent. rewrite !map_map. reflexivity. }
    assert (Eo : vals w (out_pairs ly) = created F outs).
    { rewrite <- Eo0. unfold vals, out_pairs, created. rewrite !map_map. reflexivity. }
    destruct (conservation F (in_pairs ly) (out_pairs ly) ft (ly_fee ly) c1 w Hs (conj C0 C1)) as [K1 [K2 _]].
    + rewrite Ei, Eo. apply Forall_app. unfold spent, created. rewrite !Forall_map in *. split.
      * eapply Forall_impl; [|exact W1]. intros p [_ U]. exact U.
      * eapply Forall_impl; [|exact W2]. intros p U. exact U.
    + exact Hfee.
    + unfold in_pairs. now rewrite map_length, Ln.
    + unfold out_pairs. now rewrite map_length, S2.
    + intros t. rewrite Ei, Eo in *. destruct (f_dec t ft) as [->|nn]; [exact K2|]. rewrite (K1 t nn). lia.
Qed.
End Fold.
End Wires.

(** ** Conversions *)
Section Conv.
Context (F K : PField) (Hp : (2 ^ 254 < pchar F)%Z) (P : rescue_instance F) (HP : rescue_ok F P) (e : N) (He : exp_inv F 5 e).
Context (HK : pchar K = modulus ristretto) (Hbig : (2 ^ 64 < pchar F)%Z).
Add Field Fwire2 : (f_th F).
Implicit Types (c : tcs F) (w : nat -> F).
Notation hash := (AxfrModel.hash F P).
Notation plain_sil := (plain_sil F).
Lemma rbnd_lift {A B} (m : CS F A) (f : A -> CR F B) c : rbnd (lift m) f c = f (fst (m c)) (snd (m c)).
Proof. unfold rbnd, lift. now destruct (m c). Qed.

Lemma from_wires amount ty blind pk iw c w : bar_to_abar_cs F K P e amount ty blind pk iw (cs_new F) = Ok (tt, c) -> sat c w -> w 0%nat = 0 ->
  exists l, pub_values w c = commitment F hash (key_at w 5) (w 4%nat) (w 2%nat) (w 3%nat) :: l /\
    forall comm resp beta lambda, insp_inputs F K comm resp beta lambda = Ok l -> inspected F K P (w 2%nat) (w 3%nat) comm resp beta lambda.
Proof.
  intros E Hs Z. unfold bar_to_abar_cs in E. destruct pk as [[x y] z]. rewrite !rbnd_lift in E. unfold new_pk in E. rewrite !bnd_eq in E.
  cbn [new_variable fst snd nvars ret cs_new] in E.
  match type of E with rbnd _ _ ?cc = _ => set (c1 := cc) in * end.
  match type of E with ?m c1 = _ => set (rest := m) in * end.
  assert (S : rsoundp F rest (fun _ => True) (fun w _ vs => w 0%nat = 0 ->
    exists l, vs = commitment F hash (key_at w 5) (w 4%nat) (w 2%nat) (w 3%nat) :: l /\
    forall comm resp beta lambda, insp_inputs F K comm resp beta lambda = Ok l -> inspected F K P (w 2%nat) (w 3%nat) comm resp beta lambda)).
  { unfold rest. eapply rsp_bind; [apply (rsp_body F K Hp P HP e He)|]. intros l _.
    eapply rsp_bind.
    { apply rsp_lift. eapply (sp_of F (plain F any) _ (fun _ => True) _ plain_sil); [|apply (commit_sound F P HP e He)].
      eapply ew; [apply (e_commit F P e any any0 any2); [exact I..|apply okpk_any]|auto]. }
    intros com _. eapply rsp_weak; [apply rsp_lift, publish_sp|auto|]. cbn beta.
    intros w' ? vs _ -> v1 [-> R1] v2 [-> R2] Z0. cbn [app map]. rewrite Z0 in R1. exists (map w' l). split; [cbn [commitment key_at]; now rewrite R1|].
    intros comm resp beta lambda EV. eapply (body_inspected F K Hp P HK); [exact (R2 Z0)|exact EV|reflexivity]. }
  assert (H1 : (2 <= nvars c1)%nat) by (cbn; lia).
  destruct (S c1 tt c H1 E) as (_ & _ & S1). destruct (S1 w Hs) as (_ & vs & V1 & V2). destruct (V2 Z) as (l & -> & HI). exists l. split; [exact V1|exact HI].
Qed.

Context (fold : pk_v -> sk_v -> CR F unit) (Rf : (nat -> F) -> pk_v -> sk_v -> list F -> Prop)
  (Hfold : forall pk sk, rsoundp F (fold pk sk) (fun _ => True) (fun w _ vs => Rf w pk sk vs)).
Lemma to_wires p k iw c w : let d := length (p_path F p) in abar_to_bar_cs F K P e fold p k iw (cs_new F) = Ok (tt, c) -> sat c w -> w 0%nat = 0 ->
  let s := spend_at w 2 d in let pk := key_at w (outputs_base [d]) in let sk := secret_at w (outputs_base [d] + 3) in
  exists root l fv, length l = 25%nat /\ pub_values w c = nullifier F hash pk sk s :: root :: l ++ fv /\ in_tree F hash pk root s /\
    Rf w (pk_pos (outputs_base [d])) (sk_pos (outputs_base [d] + 3)) fv /\
    forall comm resp beta lambda, insp_inputs F K comm resp beta lambda = Ok l -> inspected F K P (sp_amount s) (sp_type s) comm resp beta lambda.
Proof.
  intros d E Hs Z. unfold abar_to_bar_cs in E. rewrite rbnd_lift in E.
  destruct (puts_payer F p (cs_new F)) as [E1 N1]. cbn [cs_new nvars] in E1, N1. rewrite E1 in E. fold d in E1, N1, E.
  remember (snd (add_payer F p (cs_new F))) as c1 eqn:Ec1.
  assert (S1 : sat c1 w -> Forall (node_ok F w) (pv_path (payer_pos 2 d)) /\ pub_values w c1 = []).
  { intros Q. destruct (add_payer_sound F p (cs_new F) w) as [_ K1]; [now rewrite <- Ec1|]. rewrite E1 in K1. split; [exact K1|].
    destruct (e_add_payer F any any0 any2 p (cs_new F)) as (gs & G1 & G2 & _); [cbn; lia|]. rewrite <- Ec1 in G1. rewrite (pub_values_app F (cs_new F) c1 gs w G1), silent_pub; [reflexivity|].
    eapply Forall_impl; [|exact G2]. exact plain_sil. }
  rewrite rbnd_lift in E. destruct (puts_pk F (kp_pk F k) c1) as [E2 N2]. rewrite E2, N1 in E. rewrite rbnd_lift in E.
  remember (snd (new_pk F (kp_pk F k) c1)) as c2 eqn:Ec2.
  destruct (puts_sk F (kp_sk F k) c2) as [E3 N3]. rewrite E3, N2, N1 in E. remember (snd (new_sk F (kp_sk F k) c2)) as c3 eqn:Ec3.
  assert (Eb : (2 + spend_width d)%nat = outputs_base [d]) by (unfold outputs_base, spends_width; cbn; lia). rewrite Eb in E.
  assert (S3 : sat c3 w -> sat c1 w /\ pub_values w c3 = pub_values w c1).
  { intros Q. subst c3 c2. destruct (kp_pk F k) as [[u1 u2] u3]. split; [exact Q|reflexivity]. }
  set (pk := pk_pos (outputs_base [d])) in *. set (sk := sk_pos (outputs_base [d] + 3)) in *. set (v := payer_pos 2 d) in *.
  match type of E with ?m c3 = _ => set (rest := m) in * end.
  assert (S : rsoundp F rest (fun _ => True) (fun w _ vs => w 0%nat = 0 -> Forall (node_ok F w) (pv_path v) ->
    exists root l fv, length l = 25%nat /\ vs = nullifier F hash (vpk F w pk) (vsk F w sk) (spend_of F w v) :: root :: l ++ fv /\
      in_tree F hash (vpk F w pk) root (spend_of F w v) /\ Rf w pk sk fv /\
      forall comm resp beta lambda, insp_inputs F K comm resp beta lambda = Ok l -> inspected F K P (w (pv_amount v)) (w (pv_type v)) comm resp beta lambda)).
  { unfold rest. eapply rsp_bind.
    { apply rsp_lift. eapply (sp_of F (plain F any) _ (fun _ => True) _ plain_sil); [|apply (commit_sound F P HP e He)].
      eapply ew; [apply (e_commit F P e any any0 any2); [exact I..|apply okpk_any]|auto]. }
    intros com _. eapply rsp_bind.
    { apply rsp_lift. eapply (sp_of F (plain F any) _ (fun _ => True) _ plain_sil); [|apply linear_combine_sound].
      eapply ew; [apply (e_lc F any any2); exact I|auto]. }
    intros ua _. eapply rsp_bind.
    { apply rsp_lift. eapply (sp_of F (plain F any) _ (fun _ => True) _ plain_sil); [|apply (nullify_sound F P HP e He)].
      eapply ew; [apply (e_nullify F P e any any0 any2); [apply oksk_any|exact I|exact I|apply okpk_any]|auto]. }
    intros nf _. eapply rsp_bind.
    { apply rsp_lift. eapply (sp_of F (plain F any) _ (fun _ => True) _ plain_sil); [|apply (merkle_sound F P HP e He Hbig)].
      eapply ew; [apply (e_merkle F P e any any0 any2); [exact I..|apply oknodes_any]|auto]. }
    intros root _. eapply rsp_bind; [apply (rsp_body F K Hp P HP e He)|]. intros l _.
    eapply rsp_bind; [apply rsp_lift, publish_sp|]. intros ? _. eapply rsp_weak; [apply Hfold|auto|]. cbn beta.
    intros w' ? fv _ HR v4 -> v44 [-> Rb] v5 [-> R5] v6 [-> R6] v7 [-> R7] v8 [-> R8] Z' R11.
    specialize (Rb Z'). exists (w' root), (map w' l), fv. unfold pk in *. cbn [vpk pk_pos] in *. unfold zero_var in R7. rewrite Z' in R7, R8.
    split.
    { destruct Rb as (cv & vb & vl & vbl & vr & x & y & za & zb & r & -> & I1 & I2 & I3 & I4 & _).
      rewrite map_length. cbn [length]. rewrite !app_length, (proj1 I1), (proj1 I2), (proj1 I3), (proj1 I4). reflexivity. }
    split; [|split; [|split; [exact HR|]]].
    - cbn [app map]. f_equal. unfold nullifier, vsk. cbn [fst snd spend_of sp_uid sp_amount sp_type]. rewrite R6, R7. f_equal. f_equal. ring.
    - unfold in_tree. cbn [spend_of sp_uid sp_path]. rewrite (R5 Z' R11), R8. reflexivity.
    - intros comm resp beta lambda EV. eapply (body_inspected F K Hp P HK); [exact Rb|exact EV|reflexivity]. }
  assert (Hc3 : (2 <= nvars c3)%nat) by (rewrite N3, N2, N1; lia).
  destruct (S c3 tt c Hc3 E) as (_ & _ & S4). destruct (S4 w Hs) as (K3 & vs & V1 & V2). destruct (S3 K3) as [K1 V3]. destruct (S1 K1) as [K0 V0].
  destruct (V2 Z K0) as (root & l & fv & L & -> & T & R & HI). exists root, l, fv. rewrite V1, V3, V0. cbn [app].
  unfold v in *. rewrite read_payer in *. split; [exact L|]. split; [reflexivity|]. split; [exact T|]. split; [exact R|]. exact HI.
Qed.
End Conv.
