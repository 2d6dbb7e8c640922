(** Completeness from the note builder, and binding of tree positions. *)
From Coq Require Import List NArith ZArith Bool Lia ZifyBool ZifyNat ZifyN Field.
From Verif Require Import Base Field PField Power TurboModel TurboSpec TurboProofs TurboHonest TurboKit TurboEmit
  RescueModel RescueSpec RescueProofs XfrModel XfrSpec MixModel MixSpec MixProofs MixLemmas
  AxfrModel AxfrSpec AxfrProofs AxfrHonest.
Import ListNotations.
Ltac Zify.zify_post_hook ::= Z.div_mod_to_equations.
Local Open Scope F_scope.

Lemma emits_soundp (F : PField) {A} (m : CS F A) Q : emits F (fun _ => True) m Q -> soundp F m (fun _ => True) (fun _ _ _ => True).
Proof.
  intros H c Hc. destruct (H c Hc) as [gs [E [_ [N _]]]]. split; [exact N|]. split; [exact I|]. intros w Hs.
  split; [|eexists; split; [apply (pub_values_app F c _ gs w E)|exact I]].
  unfold sat in *. rewrite E in Hs. apply Forall_app in Hs. apply Hs.
Qed.

Section Binding.
Context (F : PField) (H : F -> F -> F -> F -> F).
Notation sides := (map (fun s : step F => fst (fst s))).
Lemma in4_dec (x y : F * F * F * F) : {x = y} + {x <> y}.
Proof. repeat decide equality; apply f_dec. Qed.
Lemma step_input_inj x x' s s' : fst (fst s) = fst (fst s') -> step_input F x s = step_input F x' s' -> x = x' /\ s = s'.
Proof. destruct s as [[[] a] b], s' as [[[] a'] b']; cbn; intros E Hx; try discriminate; inversion Hx; subst; auto. Qed.
Lemma parent_H4 x s : parent F H x s = H4 F H (step_input F x s).
Proof. destruct s as [[[] a] b]; reflexivity. Qed.
Lemma path_binding : forall p p' x x', sides p = sides p' ->
  fold_left (parent F H) p (H4 F H x) = fold_left (parent F H) p' (H4 F H x') ->
  (x = x' /\ p = p') \/ Exists (collide F H) (combine (path_inputs F H x p) (path_inputs F H x' p')).
Proof.
  induction p as [|s p IH]; intros p' x x' Es E; destruct p' as [|s' p']; try discriminate.
  - cbn in *. destruct (in4_dec x x') as [->|n]; [left; auto|right]. left. split; assumption.
  - cbn [map] in Es. injection Es as Es1 Es2. cbn [fold_left path_inputs combine] in *. rewrite !parent_H4 in E.
    destruct (IH p' _ _ Es2 E) as [[Ex Ep]|Hc]; [|right; now right].
    apply step_input_inj in Ex; [|exact Es1]. destruct Ex as [Ex ->].
    destruct (in4_dec x x') as [->|n]; [left; subst; auto|right]. left. split; assumption.
Qed.
Lemma commitment_binding pk b a t pk' b' a' t' : commitment F H pk b a t = commitment F H pk' b' a' t' ->
  (pk = pk' /\ b = b' /\ a = a' /\ t = t') \/ Exists (collide F H) (combine (com_inputs F H pk b a t) (com_inputs F H pk' b' a' t')).
Proof.
  destruct pk as [[p0 p1] p2], pk' as [[p0' p1'] p2']. cbn [commitment com_inputs combine]. intros E.
  destruct (in4_dec (H b a t p0, p1, p2, 0) (H b' a' t' p0', p1', p2', 0)) as [e|n].
  - destruct (in4_dec (b, a, t, p0) (b', a', t', p0')) as [e'|n]; [inversion e'; inversion e; auto 6|]. right. left. split; [exact n|]. cbn. congruence.
  - right. right. left. split; [exact n|exact E].
Qed.
Lemma combine_app {A B} (l1 l2 : list A) (r1 r2 : list B) : length l1 = length r1 ->
  combine (l1 ++ l2) (r1 ++ r2) = combine l1 r1 ++ combine l2 r2.
Proof.
  revert r1. induction l1 as [|a l1 IH]; intros [|b r1] L; try discriminate; [reflexivity|]. cbn. f_equal. apply IH. now injection L.
Qed.
(** Two spends at the same position of the same tree. *)
Lemma same_position_same_nullifier pk pk' sk root s1 s2 :
  in_tree F H pk root s1 -> in_tree F H pk' root s2 -> sides (sp_path s1) = sides (sp_path s2) ->
  (pk = pk' /\ nullifier F H pk sk s1 = nullifier F H pk' sk s2) \/
  Exists (collide F H) (combine (spend_inputs F H pk s1) (spend_inputs F H pk' s2)).
Proof.
  intros T1 T2 Es. unfold in_tree, root_of in *. rewrite <- T2 in T1. unfold spend_inputs.
  rewrite combine_app by (destruct pk as [[? ?] ?], pk' as [[? ?] ?]; reflexivity).
  destruct (path_binding (sp_path s1) (sp_path s2) (sp_uid s1, spend_com F H pk s1, 0, 0) (sp_uid s2, spend_com F H pk' s2, 0, 0) Es T1)
    as [[E _]|Hc]; [|right; apply Exists_app; now right].
  inversion E as [[Eu Ec]]. unfold spend_com in Ec. apply commitment_binding in Ec.
  destruct Ec as [[-> [_ [Ea Et]]]|Hc]; [|right; apply Exists_app; now left].
  left. split; [reflexivity|]. unfold nullifier. rewrite Eu, Ea, Et. reflexivity.
Qed.
End Binding.

Section Builder.
Context (F : PField) (P : rescue_instance F) (HP : rescue_ok F P) (e : N) (He : exp_inv F 5 e).
Context (Hbig : (2 ^ 64 < pchar F)%Z) (as_scalar : N -> F).
Implicit Types (c : tcs F) (w : nat -> F).
Notation hash := (hash F P).
Notation step_val := (step_val F).

(** An input that really is in the tree whose root it names. *)
Definition genuine (r : oabar F) : Prop :=
  (o_amount F r < 2 ^ 64)%N /\
  exists i, o_leaf F r = Some i /\ Forall (flags_ok F) (l_path F i) /\
    root_of F hash (fofN (l_uid F i)) (commit F P as_scalar (o_pk F r) (o_blind F r) (o_amount F r) (o_type F r))
      (map step_val (l_path F i)) = l_root F i.

Lemma pk_eqb_eq a b : pk_eqb F a b = true -> a = b.
Proof.
  destruct a as [[a0 a1] a2], b as [[b0 b1] b2]. cbn. intros H. apply andb_prop in H. destruct H as [H H2].
  apply andb_prop in H. destruct H as [H0 H1].
  destruct (feqb_spec a0 b0), (feqb_spec a1 b1), (feqb_spec a2 b2); congruence.
Qed.
Lemma check_inputs_ok k ins : check_inputs F ins k = Ok tt -> Forall (fun r => o_leaf F r <> None /\ o_pk F r = kp_pk F k) ins.
Proof.
  induction ins as [|r ins IH]; [constructor|]. cbn [check_inputs]. intros H.
  destruct (o_leaf F r) as [i|] eqn:El; [|discriminate]. cbn in H. destruct (pk_eqb F (kp_pk F k) (o_pk F r)) eqn:Ek; [|discriminate].
  constructor; [|now apply IH]. split; [congruence|]. symmetry. now apply pk_eqb_eq.
Qed.
Definition leaf_of (r : oabar F) : leaf_info F := match o_leaf F r with Some i => i | None => mkLeaf F [] 0 0 0 end.
Lemma same_roots_ok root ins : same_roots F root ins = Ok tt -> Forall (fun r => l_root F (leaf_of r) = root) ins.
Proof.
  induction ins as [|r ins IH]; [constructor|]. cbn [same_roots]. unfold leaf_of at 1. intros H.
  destruct (o_leaf F r) as [i|] eqn:El; [|discriminate]. destruct (feqb_spec (l_root F i) root) as [E|]; [|discriminate].
  constructor; [now rewrite El|now apply IH].
Qed.
Lemma mapM_map {A B} (f : A -> res B) (g : A -> B) l : Forall (fun a => f a = Ok (g a)) l -> Base.mapM f l = Ok (map g l).
Proof. induction 1 as [|a l H _ IH]; [reflexivity|]. cbn. now rewrite H, IH. Qed.

(** What the builder returns. *)
Definition payer_rec (r : oabar F) : payer_w F :=
  mkPayer F (o_amount F r) (as_scalar (o_type F r)) (l_uid F (leaf_of r)) (l_path F (leaf_of r)) (o_blind F r).
Definition pairs (l : list (oabar F)) : list (N * N) := map (fun r => (o_amount F r, o_type F r)) l.
Lemma builder_ok ins outs fee k pre : init_anon_xfr_note F P as_scalar ins outs fee k = Ok pre ->
  exists i0 ins', ins = i0 :: ins' /\ outs <> [] /\
  Forall (fun r => o_leaf F r <> None /\ o_pk F r = kp_pk F k) ins /\
  Forall (fun r => l_root F (leaf_of r) = l_root F (leaf_of i0)) ins /\
  check_asset_amount (pairs ins) (pairs outs) fee = Ok tt /\
  pre_payers F pre = map payer_rec ins /\ pre_payees F pre = map (payee_of F as_scalar) outs /\
  b_inputs F (pre_body F pre) = map (fun r => nullify F P as_scalar k (o_amount F r) (o_type F r) (l_uid F (leaf_of r))) ins /\
  b_outputs F (pre_body F pre) = map (fun r => commit F P as_scalar (o_pk F r) (o_blind F r) (o_amount F r) (o_type F r)) outs /\
  b_root F (pre_body F pre) = l_root F (leaf_of i0) /\ b_fee F (pre_body F pre) = fee.
Proof.
  unfold init_anon_xfr_note. destruct ins as [|i0 ins']; [discriminate|]. destruct outs as [|o0 outs']; [discriminate|].
  set (ins := i0 :: ins'). set (outs := o0 :: outs'). intros H.
  destruct (check_inputs F ins k) as [[]| |] eqn:C1; cbn [bind] in H; try discriminate.
  destruct (check_asset_amount (map (fun r => (o_amount F r, o_type F r)) ins)
                   (map (fun r => (o_amount F r, o_type F r)) outs) fee) as [[]| |] eqn:C2; cbn [bind] in H; try discriminate.
  destruct (check_roots F ins) as [[]| |] eqn:C3; cbn [bind] in H; try discriminate.
  pose proof (check_inputs_ok _ _ C1) as D1.
  assert (L : Forall (fun r => o_leaf F r = Some (leaf_of r)) ins).
  { eapply Forall_impl; [|exact D1]. intros r [Hr _]. unfold leaf_of. destruct (o_leaf F r); [reflexivity|congruence]. }
  rewrite (mapM_map _ (fun r => nullify F P as_scalar k (o_amount F r) (o_type F r) (l_uid F (leaf_of r))) ins) in H.
  2:{ eapply Forall_impl; [|exact L]. intros r E. unfold AxfrModel.nullifier_of. now rewrite E. }
  cbn [bind] in H. rewrite (mapM_map _ payer_rec ins) in H.
  2:{ eapply Forall_impl; [|exact L]. intros r E. unfold payer_of. now rewrite E. }
  cbn [bind] in H. destruct (Base.mapM _ outs) as [memos| |]; cbn [bind] in H; try discriminate.
  destruct (o_leaf F i0) as [i|] eqn:E0; [|discriminate]. apply Ok_inj in H. subst pre.
  assert (Ei : leaf_of i0 = i) by (unfold leaf_of; now rewrite E0).
  exists i0, ins'. cbn [pre_payers pre_payees pre_body b_inputs b_outputs b_root b_fee]. rewrite Ei.
  repeat split; try reflexivity; try assumption.
  - discriminate.
  - unfold check_roots, ins in C3. rewrite E0 in C3. unfold ins. constructor; [now rewrite Ei|]. now apply same_roots_ok.
Qed.

Section Fold.
Context (folding : pk_v -> sk_v -> CS F unit) (k : keypair F).
Context (Hfold : forall pk sk c, Inv c -> has_pk F c pk (kp_pk F k) -> has_sk F c sk (kp_sk F k) -> ha F (folding pk sk) c (fun _ _ => True)).
Context (Sfold : forall pk sk, emits F (fun _ => True) (folding pk sk) (fun _ => True)).

Theorem circuit_run ins outs fee pre :
  init_anon_xfr_note F P as_scalar ins outs fee k = Ok pre ->
  Forall genuine ins -> Forall (fun r => (o_amount F r < 2 ^ 64)%N) outs ->
  In FEE_TYPE (map (o_type F) ins) -> incl (map (o_type F) outs) (map (o_type F) ins) ->
  (forall t, In t (map (o_type F) ins) -> t <> FEE_TYPE -> In t (map (o_type F) outs)) ->
  let c := snd (xfr_cs F P e folding (pre_payers F pre) (pre_payees F pre) k fee (as_scalar FEE_TYPE) (cs_new F)) in
  Inv c /\
  exists fv, pub_values (val c) c = pub_inputs F (pre_body F pre) (b_root F (pre_body F pre)) fv /\
    forall V, publishes F folding k V -> fv = V.
Proof.
  intros HB HG HU Hf Hc1 Hc2 c.
  destruct (builder_ok _ _ _ _ _ HB) as [i0 [ins' [Ei [No [HK [HR [HC [Ep [Eq [Bi [Bo [Br Bf]]]]]]]]]]]].
  assert (SP : forall pk sk, soundp F (folding pk sk) (fun _ => True) (fun w _ vs => True)).
  { intros pk sk. eapply emits_soundp. apply Sfold. }
  assert (OKp : Forall (payer_ok F) (pre_payers F pre)).
  { rewrite Ep, Forall_map. eapply Forall_impl; [|exact HG]. intros r [Ha [i [El [Fl _]]]]. split; [|exact Ha].
    unfold payer_rec, leaf_of. cbn [p_path]. now rewrite El. }
  assert (OKq : Forall (fun q => (q_amount F q < 2 ^ 64)%N) (pre_payees F pre)).
  { rewrite Eq, Forall_map. exact HU. }
  assert (T : Forall (fun p => in_tree F hash (kp_pk F k) (l_root F (leaf_of i0)) (spend_val F p)) (pre_payers F pre)).
  { rewrite Ep, Forall_map. rewrite Forall_forall in *. intros r Hr. destruct (HG r Hr) as [_ [i [El [_ Er]]]].
    rewrite <- (HR r Hr). unfold in_tree, leaf_of. rewrite El. rewrite <- Er. destruct (HK r Hr) as [_ <-].
    cbn [spend_val sp_uid sp_path p_path p_uid payer_rec]. unfold leaf_of. rewrite El. reflexivity. }
  assert (Ne : pre_payers F pre <> []) by (rewrite Ep, Ei; discriminate).
  destruct (records_public F P HP e He Hbig folding k Hfold (fun _ _ _ _ => True) SP (pre_payers F pre) (pre_payees F pre) fee (l_root F (leaf_of i0)) Ne OKp OKq T)
    as [I1 [L [fv [_ V]]]].
  assert (FV : forall W, publishes F folding k W -> fv = W).
  { intros W HW. pose proof (records_published F P HP e He Hbig folding k W _ _ fee _ HW Ne OKp OKq T) as E. cbn zeta in E, V.
    rewrite V in E. exact (app_inv_head _ _ _ E). }
  unfold c, xfr_cs. rewrite !bnd_eq. cbn [ret snd].
  set (r1 := xfr_records F P e folding (pre_payers F pre) (pre_payees F pre) k fee (cs_new F)) in *.
  set (c1 := snd r1) in *. set (ly := fst r1) in *.
  destruct L as [L1 [L2 [L3 [L4 [L5 L6]]]]].
  assert (TY : forall l, map snd (pairs l) = map (o_type F) l) by (intros l; unfold pairs; now rewrite map_map).
  destruct (complete_from_check F as_scalar (pairs ins) (pairs outs) fee (in_pairs ly) (out_pairs ly) (ly_fee ly) c1) as [I2 [X2 _]];
    rewrite ?TY; try assumption.
  { pose proof (knownh_in F c1 ly _ L1) as K. rewrite Ep in K. unfold scalars, pairs. rewrite !map_map in *. exact K. }
  { pose proof (knownh_out F c1 ly _ L2) as K. rewrite Eq in K. unfold scalars, pairs. rewrite !map_map in *. exact K. }
  split; [exact I2|].
  exists fv. split; [|exact FV]. destruct (e_mixing F (in_pairs ly) (out_pairs ly) (as_scalar FEE_TYPE) (ly_fee ly) c1) as [gs [E1 [E2 _]]]; [apply I1|].
  rewrite (pub_values_app F c1 _ gs _ E1), silent_pub.
  2:{ eapply Forall_impl; [|exact E2]. intros g [G _]. exact G. }
  rewrite app_nil_r.
  set (c2 := snd (asset_mixing F (in_pairs ly) (out_pairs ly) (as_scalar FEE_TYPE) (ly_fee ly) c1)) in *.
  assert (PV : pub_values (val c2) c1 = pub_values (val c1) c1).
  { unfold pub_values. pose proof I1 as [_ [_ [_ [W _]]]].
    assert (G : forall g, In g (gates c1) -> pub_of (val c2) g = pub_of (val c1) g).
    { intros g Hg. unfold gates in Hg. apply in_rev in Hg. rewrite Forall_forall in W. destruct (W g Hg) as [_ Wg].
      unfold pub_of. destruct (g_pub g) as [v|]; [|reflexivity]. now rewrite (proj2 X2). }
    revert G. generalize (gates c1). induction l as [|g l IH]; intros G; [reflexivity|]. cbn.
    rewrite (G g (or_introl eq_refl)), IH; [reflexivity|]. intros g' Hg'. apply G. now right. }
  rewrite PV, V. unfold pub_inputs, public. rewrite Bi, Bo, Br, Bf, Ep, Eq, !map_map. rewrite <- !app_assoc. cbn [app]. rewrite <- ?app_assoc. reflexivity.
Qed.
Theorem circuit_complete ins outs fee pre :
  init_anon_xfr_note F P as_scalar ins outs fee k = Ok pre ->
  Forall genuine ins -> Forall (fun r => (o_amount F r < 2 ^ 64)%N) outs ->
  In FEE_TYPE (map (o_type F) ins) -> incl (map (o_type F) outs) (map (o_type F) ins) ->
  (forall t, In t (map (o_type F) ins) -> t <> FEE_TYPE -> In t (map (o_type F) outs)) ->
  let c := snd (xfr_cs F P e folding (pre_payers F pre) (pre_payees F pre) k fee (as_scalar FEE_TYPE) (cs_new F)) in
  sat c (val c) /\ conv (val c) /\
  exists fv, pub_values (val c) c = pub_inputs F (pre_body F pre) (b_root F (pre_body F pre)) fv /\
    forall V, publishes F folding k V -> fv = V.
Proof.
  intros H1 H2 H3 H4 H5 H6 c. destruct (circuit_run ins outs fee pre H1 H2 H3 H4 H5 H6) as [[_ [_ [C2 [_ S2]]]] R].
  split; [exact S2|]. split; [exact C2|exact R].
Qed.
End Fold.
End Builder.
