(** Soundness of the anonymous-transfer circuit. *)
From Coq Require Import List NArith ZArith Bool Lia ZifyBool ZifyNat ZifyN Field.
From Verif Require Import Base Field PField Power TurboModel TurboSpec TurboProofs TurboHonest TurboKit TurboEmit
  RescueModel RescueSpec RescueProofs XfrModel XfrSpec MixModel MixSpec MixProofs MixLemmas AxfrModel AxfrSpec.
Import ListNotations.
Ltac Zify.zify_post_hook ::= Z.div_mod_to_equations.
Local Open Scope F_scope.

Section Proofs.
Context (F : PField) (P : rescue_instance F) (HP : rescue_ok F P) (e : N) (He : exp_inv F 5 e).
Add Field Faxp : (f_th F).
Implicit Types (c : tcs F) (w : nat -> F).
Notation hash := (hash F P).

Lemma hash_ok (a b c d : F) : exists t, rescue F P [a;b;c;d] = Ok (hash a b c d :: t) /\ length t = 3%nat.
Proof.
  destruct (rescue_len F P HP [a;b;c;d] eq_refl) as [t [Ht E]]. unfold AxfrModel.hash. rewrite E.
  destruct t as [|h t]; [discriminate|]. exists t. split; [reflexivity|]. unfold vec4 in Ht. cbn in Ht. lia.
Qed.

(** ** Gates *)
Lemma e_hash (ok : nat -> Prop) (ok0 : ok 0%nat) (ok2 : forall i, (2 <= i)%nat -> ok i) a b x d : ok a -> ok b -> ok x -> ok d ->
  emits F (plain F ok) (hash_cs F P e a b x d) ok.
Proof.
  intros. unfold hash_cs. eapply eb; [apply (e_rescue F ok ok0 ok2); repeat (constructor; try assumption)|].
  intros os Hos. apply er. destruct os; [exact ok0|]. cbn. now inversion Hos.
Qed.
Lemma hash_sound a b x d : sound (hash_cs F P e a b x d) (fun w o => w o = hash (w a) (w b) (w x) (w d)).
Proof.
  unfold hash_cs. eapply (sound_len F _ _ 4%nat).
  - intros c. apply (rescue_hash_len F P HP). reflexivity.
  - apply (rescue_hash_sound F P HP e [a;b;x;d] He eq_refl).
  - intros l Hl. apply sr. intros w H. cbn [map] in H. destruct (hash_ok (w a) (w b) (w x) (w d)) as [t [E _]].
    rewrite E in H. destruct l as [|o l]; [discriminate|]. cbn in *. apply Ok_inj in H. now inversion H.
Qed.
Lemma commit_sound b a t pk : sound (commit_in_cs F P e b a t pk)
  (fun w o => let '(p0, p1, p2) := pk in w o = hash (hash (w b) (w a) (w t) (w p0)) (w p1) (w p2) (w 0%nat)).
Proof.
  destruct pk as [[p0 p1] p2]. unfold commit_in_cs. eapply sb; [apply hash_sound|]. intros u.
  eapply sw; [apply hash_sound|]. intros w o H1 H2. now rewrite H1, H2.
Qed.
Lemma nullify_sound sk ua t pk : sound (nullify_in_cs F P e sk ua t pk)
  (fun w o => let '(p0, p1, p2) := pk in
     w o = hash (hash (w ua) (w t) (w p0) (w p1)) (w p2) (w (fst sk)) (w (snd sk))).
Proof.
  destruct pk as [[p0 p1] p2]. unfold nullify_in_cs. eapply sb; [apply hash_sound|]. intros u.
  eapply sw; [apply hash_sound|]. intros w o H1 H2. now rewrite H1, H2.
Qed.

(** ** Merkle paths *)
Definition node_ok w (n : node_v) : Prop :=
  boolean (w (nv_left n)) /\ boolean (w (nv_right n)) /\ boolean (w (nv_left n) + w (nv_right n)).
Lemma boolean_nodes_sound ns : sound (boolean_nodes F ns) (fun w _ => Forall (node_ok w) ns).
Proof.
  induction ns as [|n ns IH]; cbn [boolean_nodes]; [apply sr; constructor|].
  eapply sb; [apply boolean_gate_sound|]. intros ?.
  eapply sb; [apply boolean_gate_sound|]. intros ?.
  eapply sb; [apply add_sound|]. intros s.
  eapply sb; [apply boolean_gate_sound|]. intros ?.
  eapply sw; [exact IH|]. intros w ? H1 H2 H3 H4 H5. constructor; [|exact H1].
  split; [exact H5|]. split; [exact H4|]. now rewrite <- H3.
Qed.
Definition side_of w (n : node_v) : step F :=
  ((if f_dec (w (nv_left n)) 0 then if f_dec (w (nv_right n)) 0 then SMiddle else SRight else SLeft),
   w (nv_s1 n), w (nv_s2 n)).
Lemma two_not_boolean (H2 : (2 < pchar F)%Z) : ~ boolean (1 + 1 : F).
Proof.
  intros [E|E].
  - assert (X : (2 = 0)%Z); [|discriminate X]. apply (no_wrap F); [lia|lia|]. change 2%Z with (1 + 1)%Z. rewrite fofZ_add. exact E.
  - apply (f1_neq_0 F). replace (1 : F) with (1 + 1 - 1 : F) by ring. rewrite E. ring.
Qed.

Section Big.
Context (Hbig : (2 ^ 64 < pchar F)%Z).
Lemma sort_sound n s1 s2 l r : sound (sort F n s1 s2 l r)
  (fun w st => boolean (w l) -> boolean (w r) -> boolean (w l + w r) ->
     hash (w (fst (fst st))) (w (snd (fst st))) (w (snd st)) 0 =
     parent F hash (w n) (side_of w (mkNodeV s1 s2 l r))).
Proof.
  unfold sort. eapply sb; [apply select_sound|]. intros left. eapply sb; [apply select_sound|]. intros right.
  eapply sb; [apply add_sound|]. intros sum. eapply sb; [apply linear_combine_sound|]. intros mid.
  apply sr. intros w Hm Hs Hr Hl Bl Br Blr. cbn [fst snd]. unfold side_of. cbn [nv_left nv_right nv_s1 nv_s2].
  rewrite Hm, Hs, Hr, Hl.
  destruct Bl as [El|El], Br as [Er|Er]; rewrite El, Er in *.
  - destruct (f_dec 0 0) as [_|n0]; [|now contradiction n0]. cbn [parent]. f_equal; ring.
  - destruct (f_dec 0 0) as [_|n0]; [|now contradiction n0]. destruct (f_dec 1 0) as [n0|_]; [now apply f1_neq_0 in n0|].
    cbn [parent]. f_equal; ring.
  - destruct (f_dec 1 0) as [n0|_]; [now apply f1_neq_0 in n0|]. cbn [parent]. f_equal; ring.
  - exfalso. apply two_not_boolean in Blr; [exact Blr|lia].
Qed.
Lemma merkle_loop_sound path : forall n, sound (merkle_loop F P e n path)
  (fun w o => w 0%nat = 0 -> Forall (node_ok w) path -> w o = fold_left (parent F hash) (map (side_of w) path) (w n)).
Proof.
  induction path as [|p path IH]; intros n; cbn [merkle_loop]; [apply sr; reflexivity|].
  eapply sb; [apply sort_sound|]. intros st. eapply sb; [apply hash_sound|]. intros n'.
  eapply sw; [apply IH|]. intros w o H1 H2 H3 Z HN. inversion HN as [|? ? [B1 [B2 B3]] HN']; subst.
  rewrite (H1 Z HN'), H2. cbn [map fold_left]. f_equal. unfold zero_var. rewrite Z, H3 by assumption.
  destruct p; reflexivity.
Qed.
Lemma merkle_sound uid com path : sound (compute_merkle_root_variables F P e uid com path)
  (fun w o => w 0%nat = 0 -> Forall (node_ok w) path -> w o = root_of F hash (w uid) (w com) (map (side_of w) path)).
Proof.
  unfold compute_merkle_root_variables. eapply sb; [apply hash_sound|]. intros n.
  eapply sw; [apply merkle_loop_sound|]. intros w o H1 H2 Z HN. rewrite (H1 Z HN), H2. unfold zero_var. rewrite Z. reflexivity.
Qed.

(** ** Emission *)
Section Ok.
Context (ok : nat -> Prop) (ok0 : ok 0%nat) (ok2 : forall i, (2 <= i)%nat -> ok i).
Notation em := (emits F (plain F ok)).
Definition ok_pk (pk : pk_v) : Prop := let '(a, b, x) := pk in ok a /\ ok b /\ ok x.
Definition ok_sk (sk : sk_v) : Prop := ok (fst sk) /\ ok (snd sk).
Definition ok_node (n : node_v) : Prop := ok (nv_s1 n) /\ ok (nv_s2 n) /\ ok (nv_left n) /\ ok (nv_right n).
Definition ok_payer (p : payer_v) : Prop :=
  ok (pv_uid p) /\ ok (pv_amount p) /\ ok (pv_type p) /\ ok (pv_blind p) /\ Forall ok_node (pv_path p).
Definition ok_payee (q : payee_v) : Prop := ok (qv_amount q) /\ ok (qv_blind q) /\ ok (qv_type q) /\ ok_pk (qv_pk q).
Lemma e_commit b a t pk : ok b -> ok a -> ok t -> ok_pk pk -> em (commit_in_cs F P e b a t pk) ok.
Proof.
  intros Hb Ha Ht Hp. destruct pk as [[p0 p1] p2]. destruct Hp as [K0 [K1 K2]]. unfold commit_in_cs.
  eapply eb; [apply (e_hash ok); assumption|]. intros u Hu. apply (e_hash ok); assumption.
Qed.
Lemma e_nullify sk ua t pk : ok_sk sk -> ok ua -> ok t -> ok_pk pk -> em (nullify_in_cs F P e sk ua t pk) ok.
Proof.
  intros [Hb Ha] Hu Ht Hp. destruct pk as [[p0 p1] p2]. destruct Hp as [K0 [K1 K2]]. unfold nullify_in_cs.
  eapply eb; [apply (e_hash ok); assumption|]. intros u Hu'. apply (e_hash ok); assumption.
Qed.
Lemma e_merkle uid com path : ok uid -> ok com -> Forall ok_node path ->
  em (compute_merkle_root_variables F P e uid com path) ok.
Proof.
  intros Hu Hc Hp. unfold compute_merkle_root_variables. eapply eb; [apply (e_hash ok); assumption|].
  induction Hp as [|p path [K1 [K2 [K3 K4]]] _ IH]; intros n Hn; cbn [merkle_loop]; [now apply er|].
  unfold sort. eapply (eb _ _ _ _ (fun st => ok (fst (fst st)) /\ ok (snd (fst st)) /\ ok (snd st))).
  - eapply eb; [apply (e_select F ok ok2); assumption|]. intros l Hl.
    eapply eb; [apply (e_select F ok ok2); assumption|]. intros r Hr.
    eapply eb; [apply (e_add F ok ok0 ok2); assumption|]. intros s Hs.
    eapply eb; [apply (e_lc F ok ok2); assumption|]. intros m Hm. apply er. auto.
  - intros st [S1 [S2 S3]]. eapply eb; [apply (e_hash ok); assumption|]. exact IH.
Qed.
Lemma e_new_node n : em (new_node F n) ok_node.
Proof.
  unfold new_node. do 4 (eapply eb; [apply e_new|]; intros ? ?). apply er. unfold ok_node. cbn. auto.
Qed.
Lemma e_boolean_nodes ns : Forall ok_node ns -> em (boolean_nodes F ns) (fun _ => True).
Proof.
  induction 1 as [|n ns [K1 [K2 [K3 K4]]] _ IH]; cbn [boolean_nodes]; [now apply er|].
  eapply eb; [apply (e_bool F ok ok0); assumption|]. intros ? _.
  eapply eb; [apply (e_bool F ok ok0); assumption|]. intros ? _.
  eapply eb; [apply (e_add F ok ok0 ok2); assumption|]. intros s Hs.
  eapply eb; [apply (e_bool F ok ok0); assumption|]. intros ? _. exact IH.
Qed.
Lemma e_add_path p : em (add_merkle_path_variables F p) (fun ns => length ns = length p /\ Forall ok_node ns).
Proof.
  unfold add_merkle_path_variables. eapply eb; [apply (e_mapM F _ _ ok_node), e_new_node|]. intros ns [L H].
  eapply eb; [now apply e_boolean_nodes|]. intros ? _. now apply er.
Qed.
Lemma e_add_payer p : em (add_payer F p) (fun v => length (pv_path v) = length (p_path F p) /\ ok_payer v).
Proof.
  unfold add_payer. do 3 (eapply eb; [apply e_new|]; intros ? ?).
  eapply eb; [apply e_add_path|]. intros ns [L HL]. eapply eb; [apply e_new|]. intros t Ht. apply er.
  split; [exact L|]. unfold ok_payer. cbn. auto 6.
Qed.
Lemma e_new_pk pk : em (new_pk F pk) ok_pk.
Proof.
  destruct pk as [[a b] x]. unfold new_pk. do 3 (eapply eb; [apply e_new|]; intros ? ?). apply er. cbn. auto.
Qed.
Lemma e_new_sk sk : em (new_sk F sk) ok_sk.
Proof. unfold new_sk. do 2 (eapply eb; [apply e_new|]; intros ? ?). apply er. split; auto. Qed.
Lemma e_add_payee q : em (add_payee F q) ok_payee.
Proof.
  unfold add_payee. do 3 (eapply eb; [apply e_new|]; intros ? ?). eapply eb; [apply e_new_pk|]. intros pk Hk. apply er.
  unfold ok_payee. cbn. auto.
Qed.
End Ok.

(** ** Records *)
Definition vpk w (pk : pk_v) : F * F * F := let '(a, b, x) := pk in (w a, w b, w x).
Definition vsk w (sk : sk_v) : F * F := (w (fst sk), w (snd sk)).
Definition spend_of w (p : payer_v) : spend F :=
  mkSpend (w (pv_uid p)) (w (pv_amount p)) (w (pv_type p)) (w (pv_blind p)) (map (side_of w) (pv_path p)).
Definition output_of w (q : payee_v) : output F :=
  mkOutput (w (qv_amount q)) (w (qv_type q)) (w (qv_blind q)) (vpk w (qv_pk q)).

Definition any (i : nat) : Prop := True.
Lemma any0 : any 0. Proof. exact I. Qed.
Lemma any2 i : (2 <= i)%nat -> any i. Proof. intros _. exact I. Qed.
Lemma plain_sil g : plain F any g -> silent F g. Proof. intros [H _]. exact H. Qed.
Lemma range64_sound v : sound (range_check F v 64) (fun w _ => u64f (w v)).
Proof.
  eapply sw; [apply (range_check_sound F v 64); [lia|]|].
  - change (Z.of_nat 64) with 64%Z. lia.
  - intros w bs H. cbn beta in H. unfold u64f. change (2 ^ 64)%Z with (2 ^ Z.of_nat 64)%Z. apply H.
Qed.
Lemma okpk_any pk : ok_pk any pk. Proof. destruct pk as [[a b] x]. cbn. unfold any. auto. Qed.
Lemma oksk_any sk : ok_sk any sk. Proof. split; exact I. Qed.
Lemma oknodes_any l : Forall (ok_node any) l.
Proof. induction l; constructor; [unfold ok_node, any; auto|assumption]. Qed.

Lemma payer_cs_sound pk sk root p : soundp F (payer_cs F P e pk sk root p)
  (fun root' => match root with Some r => root' = Some r | None => root' <> None end)
  (fun w root' vs => w 0%nat = 0 -> Forall (node_ok w) (pv_path p) ->
     vs = [nullifier F hash (vpk w pk) (vsk w sk) (spend_of w p)] /\ u64f (w (pv_amount p)) /\
     forall r, root' = Some r -> in_tree F hash (vpk w pk) (w r) (spend_of w p)).
Proof.
  unfold payer_cs.
  eapply spb.
  { eapply (sp_of F (plain F any) _ (fun _ => True) _ plain_sil); [|apply commit_sound].
    eapply ew; [apply (e_commit any any0 any2); [exact I..|apply okpk_any]|auto]. }
  intros com _.
  eapply spb.
  { eapply (sp_of F (plain F any) _ (fun _ => True) _ plain_sil); [|apply linear_combine_sound].
    eapply ew; [apply (e_lc F any any2); exact I|auto]. }
  intros ua _.
  eapply spb.
  { eapply (sp_of F (plain F any) _ (fun _ => True) _ plain_sil); [|apply nullify_sound].
    eapply ew; [apply (e_nullify any any0 any2); [apply oksk_any|exact I|exact I|apply okpk_any]|auto]. }
  intros nf _.
  eapply spb.
  { eapply (sp_of F (plain F any) _ (fun _ => True) _ plain_sil); [|apply merkle_sound].
    eapply ew; [apply (e_merkle any any0 any2); [exact I..|apply oknodes_any]|auto]. }
  intros tmp _.
  eapply spb.
  { eapply (sp_of F (plain F any) _ (fun _ => True) _ plain_sil); [|apply range64_sound].
    eapply ew; [apply (e_range F any any0 any2); exact I|auto]. }
  intros bs _.
  eapply (spb _ _ _ (fun root' => match root with Some r => root' = Some r | None => root' <> None end)
    (fun w root' vs => vs = [] /\ (w 0%nat = 0 -> forall r, root' = Some r -> w r = w tmp))).
  { destruct root as [r|].
    - eapply spb; [eapply (sp_of F (plain F any) _ (fun _ => True) _ plain_sil); [|apply equal_sound]|].
      + apply (e_equal F any any0); exact I.
      + intros ? _. apply spr; [reflexivity|]. intros w vs [-> H]. split; [reflexivity|]. intros Z r' Hr. injection Hr as <-.
        symmetry. apply (proj1 (fsub_0 F _ _)). rewrite Z in H. replace (w tmp - w r) with (- (w r - w tmp)) by ring.
        rewrite <- H. ring.
    - apply spr; [discriminate|]. intros w. split; [reflexivity|]. intros Z r Hr. now injection Hr as <-. }
  intros root' Hroot'.
  eapply spb; [apply sp_pi|]. intros ? _. apply spr; [exact Hroot'|].
  intros w v1 E1 v2 [E2 R2] v3 [E3 R3] v4 [E4 R4] v5 [E5 R5] v6 [E6 R6] v7 [E7 R7] Z HN.
  subst v1 v2 v3 v4 v5 v6 v7. cbn [app]. destruct pk as [[p0 p1] p2]. cbn [vpk]. unfold zero_var in R6. rewrite Z in R6, R7.
  split; [|split; [exact R3|]].
  - f_equal. unfold nullifier, vsk. cbn [fst snd spend_of sp_uid sp_amount sp_type]. rewrite R5, R6. f_equal. f_equal. ring.
  - intros r Hr. rewrite (R2 Z r Hr). unfold in_tree. cbn [spend_of sp_uid sp_path]. rewrite (R4 Z HN), R7. reflexivity.
Qed.

Lemma payers_sound pk sk l : forall root, soundp F (payers_cs F P e pk sk root l)
  (fun root' => match root with Some r => root' = Some r | None => l <> [] -> root' <> None end)
  (fun w root' vs => w 0%nat = 0 -> Forall (fun p => Forall (node_ok w) (pv_path p)) l ->
     vs = map (nullifier F hash (vpk w pk) (vsk w sk)) (map (spend_of w) l) /\
     forall r, root' = Some r ->
       Forall (fun s => in_tree F hash (vpk w pk) (w r) s /\ u64f (sp_amount s)) (map (spend_of w) l)).
Proof.
  induction l as [|p l IH]; intros root.
  - apply spr; [destruct root; [reflexivity|intros H; now contradiction H]|]. intros w _ _. split; [reflexivity|]. constructor.
  - unfold payers_cs. cbn [foldM]. fold (payers_cs F P e pk sk). eapply spb; [apply payer_cs_sound|]. intros root1 H1.
    eapply spw; [apply IH| |].
    + cbn beta. intros a. destruct root as [r|]; [subst root1; auto|]. destruct root1; [|now contradiction H1]. intros ->. discriminate.
    + cbn beta. intros w a v2 HQ HR v1 HR1 Z HN. inversion HN as [|? ? N1 N2]; subst.
      destruct (HR Z N2) as [-> T]. destruct (HR1 Z N1) as [-> [U T1]]. split; [reflexivity|].
      intros r Hr. cbn [map]. constructor; [|now apply T]. split; [|exact U]. apply T1.
      destruct root1; [congruence|]. destruct root; [congruence|now contradiction H1].
Qed.
Lemma payees_sound l : soundp F (payees_cs F P e l) (fun _ => True)
  (fun w _ vs => w 0%nat = 0 -> vs = map (output_com F hash) (map (output_of w) l) /\ Forall (fun o => u64f (ou_amount o)) (map (output_of w) l)).
Proof.
  unfold payees_cs. generalize tt at 1. induction l as [|q l IH]; intros u; cbn [foldM].
  - apply spr; [exact I|]. intros w _. split; [reflexivity|constructor].
  - unfold payee_cs at 1.
    eapply (spb _ _ _ (fun _ => True) (fun w _ vs => w 0%nat = 0 -> vs = [output_com F hash (output_of w q)] /\ u64f (w (qv_amount q)))).
    + eapply spb.
      { eapply (sp_of F (plain F any) _ (fun _ => True) _ plain_sil); [|apply commit_sound].
        eapply ew; [apply (e_commit any any0 any2); [exact I..|apply okpk_any]|auto]. }
      intros com _.
      eapply spb.
      { eapply (sp_of F (plain F any) _ (fun _ => True) _ plain_sil); [|apply range64_sound].
        eapply ew; [apply (e_range F any any0 any2); exact I|auto]. }
      intros bs _. eapply spw; [apply sp_pi|auto|]. cbn beta.
      intros w a vs _ -> v2 [-> R2] v1 [-> R1] Z. split; [|exact R2]. cbn [app]. f_equal.
      unfold output_com, output_of. cbn [ou_pk ou_blind ou_amount ou_type]. destruct (qv_pk q) as [[p0 p1] p2]. cbn [vpk].
      rewrite R1, Z. reflexivity.
    + intros u' _. eapply spw; [apply IH|auto|]. cbn beta. intros w a v2 _ HR v1 HR1 Z.
      destruct (HR Z) as [-> T]. destruct (HR1 Z) as [-> U]. split; [reflexivity|]. cbn [map]. constructor; [exact U|exact T].
Qed.

Lemma new_var_sp x : soundp F (new_variable F x) (fun _ => True) (fun _ _ vs => vs = []).
Proof.
  eapply spw; [eapply (sp_of F (plain F any) _ (fun _ => True) (fun _ _ => True) plain_sil); [|apply sound_new]|auto|].
  - eapply ew; [apply e_new|auto].
  - intros w a vs _ [H _]. exact H.
Qed.
Lemma mapM_soundR {A B} (f : A -> CS F B) (R : (nat -> F) -> B -> Prop) l :
  (forall a, sound (f a) R) -> sound (RescueModel.mapM F f l) (fun w bs => Forall (R w) bs).
Proof.
  intros H. induction l as [|a l IH]; cbn [RescueModel.mapM]; [apply sr; constructor|].
  eapply sb; [apply H|]. intros b. eapply sb; [exact IH|]. intros bs. apply sr. intros w H1 H2. now constructor.
Qed.
Lemma any_sound {A} (m : CS F A) K Q : emits F K m Q -> (forall c, (2 <= nvars c)%nat) -> sound m (fun _ _ => True).
Proof.
  intros H H2 c w Hs. destruct (H c (H2 c)) as [gs [E _]]. split; [|exact I]. unfold sat in *. rewrite E in Hs.
  apply Forall_app in Hs. apply Hs.
Qed.
Lemma add_path_sound p : sound (add_merkle_path_variables F p) (fun w ns => Forall (node_ok w) ns).
Proof.
  unfold add_merkle_path_variables. eapply sb; [apply (mapM_soundR _ (fun _ _ => True))|].
  - intros a. unfold new_node. do 4 (eapply sb; [apply sound_new|]; intros ?). apply sr. auto.
  - intros ns. eapply sb; [apply boolean_nodes_sound|]. intros ?. apply sr. auto.
Qed.
Lemma add_payer_sound p : sound (add_payer F p) (fun w v => Forall (node_ok w) (pv_path v)).
Proof.
  unfold add_payer. do 3 (eapply sb; [apply sound_new|]; intros ?). eapply sb; [apply add_path_sound|]. intros ns.
  eapply sb; [apply sound_new|]. intros t. apply sr. auto.
Qed.
Lemma new_pk_sound pk : sound (new_pk F pk) (fun _ _ => True).
Proof. destruct pk as [[a b] x]. unfold new_pk. do 3 (eapply sb; [apply sound_new|]; intros ?). apply sr. auto. Qed.
Lemma new_sk_sound sk : sound (new_sk F sk) (fun _ _ => True).
Proof. unfold new_sk. do 2 (eapply sb; [apply sound_new|]; intros ?). apply sr. auto. Qed.
Lemma add_payee_sound q : sound (add_payee F q) (fun _ _ => True).
Proof.
  unfold add_payee. do 3 (eapply sb; [apply sound_new|]; intros ?). eapply sb; [apply new_pk_sound|]. intros pk. apply sr. auto.
Qed.

Section Fold.
Context (folding : pk_v -> sk_v -> CS F unit) (Rf : (nat -> F) -> pk_v -> sk_v -> list F -> Prop)
  (Hfold : forall pk sk, soundp F (folding pk sk) (fun _ => True) (fun w _ vs => Rf w pk sk vs)).
Definition shape (payers : list (payer_w F)) (payees : list (payee_w F)) (ly : layout) : Prop :=
  map (fun p => length (pv_path p)) (ly_payers ly) = map (fun p => length (p_path F p)) payers /\
  length (ly_payees ly) = length payees.
Lemma records_sound payers payees k fee : payers <> [] ->
  soundp F (xfr_records F P e folding payers payees k fee) (shape payers payees)
   (fun w ly vs => w 0%nat = 0 ->
     exists fv, Rf w (ly_pk ly) (ly_sk ly) fv /\
     vs = public F hash (vpk w (ly_pk ly)) (vsk w (ly_sk ly)) (w (ly_root ly))
            (map (spend_of w) (ly_payers ly)) (map (output_of w) (ly_payees ly)) (w (ly_fee ly)) ++ fv /\
     well_formed F hash (vpk w (ly_pk ly)) (w (ly_root ly)) (map (spend_of w) (ly_payers ly)) (map (output_of w) (ly_payees ly))).
Proof.
  intros Hne. unfold xfr_records.
  eapply (spb _ _ _ (fun pv => map (fun p => length (pv_path p)) pv = map (fun p => length (p_path F p)) payers)).
  { eapply (sp_of F (plain F any) _ _ _ plain_sil); [|apply (mapM_soundR _ _ _ add_payer_sound)].
    clear Hne. induction payers as [|p l IH]; cbn [RescueModel.mapM]; [now apply er|].
    eapply eb; [apply (e_add_payer any any0 any2)|]. intros v [L _]. eapply eb; [exact IH|]. intros vs Hvs. apply er.
    cbn [map]. now rewrite L, Hvs. }
  intros pv Hpv.
  eapply (spb _ _ _ (fun qv => length qv = length payees)).
  { eapply (sp_of F (plain F any) _ _ _ plain_sil); [|apply (mapM_soundR _ _ _ add_payee_sound)].
    eapply ew; [apply (e_mapM F _ _ (fun _ => True))|intros a [L _]; exact L].
    intros a. eapply ew; [apply (e_add_payee any any2)|auto]. }
  intros qv Hqv.
  eapply spb.
  { eapply (sp_of F (plain F any) _ (fun _ => True) _ plain_sil); [|apply new_pk_sound].
    eapply ew; [apply (e_new_pk any any2)|auto]. }
  intros pk _.
  eapply spb.
  { eapply (sp_of F (plain F any) _ (fun _ => True) _ plain_sil); [|apply new_sk_sound].
    eapply ew; [apply (e_new_sk any any2)|auto]. }
  intros sk _.
  eapply spb; [apply payers_sound|]. cbn beta iota. intros root Hroot.
  assert (Hr : exists r, root = Some r).
  { destruct root as [r|]; [eauto|]. exfalso. apply Hroot; [|reflexivity]. intros ->. destruct payers; [now apply Hne|discriminate]. }
  destruct Hr as [r ->].
  eapply spb; [apply sp_pi|]. intros ? _.
  eapply spb; [apply payees_sound|]. intros ? _.
  eapply spb; [apply new_var_sp|]. intros fvar _.
  eapply spb; [apply sp_pi|]. intros ? _.
  eapply spb; [apply Hfold|]. intros ? _.
  apply spr; [split; assumption|].
  cbn beta. intros w v1 R1 v2 E2 v3 E3 v4 R4 v5 E5 v6 R6 v7 [E7 _] v8 [E8 _] v9 [E9 _] v10 [E10 R10] Z.
  cbn [ly_pk ly_sk ly_root ly_payers ly_payees ly_fee]. destruct (R4 Z) as [-> T4]. destruct (R6 Z R10) as [-> T6].
  exists v1. split; [exact R1|]. subst. cbn [app]. rewrite !app_nil_r. split.
  - unfold public. rewrite <- !app_assoc. cbn [app]. rewrite <- ?app_assoc. reflexivity.
  - split; [now apply T6|exact T4].
Qed.

(** The whole circuit. *)
Theorem circuit_sound payers payees k fee ft w :
  payers <> [] -> (Z.of_nat (length payers) * 2 ^ 64 < pchar F)%Z -> ((Z.of_nat (length payees) + 1) * 2 ^ 64 < pchar F)%Z ->
  let r := xfr_cs F P e folding payers payees k fee ft (cs_new F) in
  sat (snd r) w -> conv w ->
  exists ins outs pk sk root fee' fv,
    map (fun s => length (sp_path s)) ins = map (fun p => length (p_path F p)) payers /\
    length outs = length payees /\
    pub_values w (snd r) = public F hash pk sk root ins outs fee' ++ fv /\
    Rf w (ly_pk (fst r)) (ly_sk (fst r)) fv /\ vpk w (ly_pk (fst r)) = pk /\ vsk w (ly_sk (fst r)) = sk /\
    well_formed F hash pk root ins outs /\
    (u64f fee' -> conserves F ft ins outs fee').
Proof.
  intros Hne Hp Hq r Hs C. unfold r, xfr_cs in *. clear r. rewrite !bnd_eq in *. cbn [ret fst snd] in *.
  destruct (records_sound payers payees k fee Hne (cs_new F)) as [_ [[S1 S2] HR]]; [cbn; lia|].
  set (c1 := snd (xfr_records F P e folding payers payees k fee (cs_new F))) in *.
  set (ly := fst (xfr_records F P e folding payers payees k fee (cs_new F))) in *.
  pose proof (asset_mixing_sound F _ _ _ _ c1 w Hs) as [Hs1 _].
  destruct (HR w Hs1) as [_ [vs [V1 V2]]]. destruct C as [C0 C1]. destruct (V2 C0) as [fv [V3 [V4 V5]]].
  exists (map (spend_of w) (ly_payers ly)), (map (output_of w) (ly_payees ly)), (vpk w (ly_pk ly)), (vsk w (ly_sk ly)), (w (ly_root ly)), (w (ly_fee ly)), fv.
  assert (L1 : length (ly_payers ly) = length payers).
  { apply (f_equal (@length nat)) in S1. now rewrite !map_length in S1. }
  split; [|split; [|split; [|split; [|split; [|split; [|split]]]]]].
  - rewrite map_map. rewrite <- S1. apply map_ext. intros p. cbn. apply map_length.
  - now rewrite map_length.
  - destruct (e_mixing F (in_pairs ly) (out_pairs ly) ft (ly_fee ly) c1) as [gs [E1 [E2 _]]].
    { destruct (records_sound payers payees k fee Hne (cs_new F)) as [Hn _]; [cbn; lia|]. cbn in Hn. fold c1 in Hn. lia. }
    rewrite (pub_values_app F c1 _ gs w E1), silent_pub.
    + rewrite app_nil_r, V1. cbn. exact V4.
    + eapply Forall_impl; [|exact E2]. intros g [G _]. exact G.
  - exact V3.
  - reflexivity.
  - reflexivity.
  - exact V5.
  - intros Hfee. destruct V5 as [W1 W2].
    assert (Ei : vals w (in_pairs ly) = spent F (map (spend_of w) (ly_payers ly))).
    { unfold vals, in_pairs, spent. rewrite !map_map. reflexivity. }
    assert (Eo : vals w (out_pairs ly) = created F (map (output_of w) (ly_payees ly))).
    { unfold vals, out_pairs, created. rewrite !map_map. reflexivity. }
    destruct (conservation F (in_pairs ly) (out_pairs ly) ft (ly_fee ly) c1 w Hs (conj C0 C1)) as [K1 [K2 _]].
    + rewrite Ei, Eo. apply Forall_app. unfold spent, created. rewrite !Forall_map in *. split.
      * eapply Forall_impl; [|exact W1]. intros p [_ U]. exact U.
      * eapply Forall_impl; [|exact W2]. intros p U. exact U.
    + exact Hfee.
    + unfold in_pairs. now rewrite map_length, L1.
    + unfold out_pairs. now rewrite map_length, S2.
    + intros t. rewrite Ei, Eo in *. destruct (f_dec t ft) as [->|n]; [exact K2|]. rewrite (K1 t n). lia.
Qed.
End Fold.
End Big.
End Proofs.
