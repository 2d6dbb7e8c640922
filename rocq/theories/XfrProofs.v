(** Proofs about the transfer model. *)
From Coq Require Import List NArith ZArith Bool Lia ZifyBool ZifyNat ZifyN.
From Verif Require Import Base Field UtilsModel XfrModel XfrSpec.
Import ListNotations.
Ltac Zify.zify_post_hook ::= Z.div_mod_to_equations.
Local Open Scope Z_scope.

(** ** The per-type sums *)

(** Signed total of type [t] in a list of (type, signed amount). *)
Fixpoint ssum (t : N) (l : list (N * Z)) : Z :=
  match l with
  | [] => 0
  | (t', v) :: l' => (if N.eqb t' t then v else 0) + ssum t l'
  end.

Lemma ssum_app t l l' : ssum t (l ++ l') = ssum t l + ssum t l'.
Proof. induction l as [|[t' v] l IH]; cbn; lia. Qed.

Definition pushes (m : amap) (l : list (N * Z)) : amap :=
  fold_left (fun m tv => push_amount m (fst tv) (snd tv)) l m.

Lemma pushes_app m l l' : pushes m (l ++ l') = pushes (pushes m l) l'.
Proof. unfold pushes. apply fold_left_app. Qed.

Fixpoint entry (m : amap) (t : N) : list Z :=
  match m with
  | [] => []
  | (t', vs) :: m' => if N.eqb t' t then vs else entry m' t
  end.

Lemma push_entry m t v t' :
  entry (push_amount m t v) t' = if N.eqb t t' then entry m t' ++ [v] else entry m t'.
Proof.
  induction m as [|[k vs] m IH]; cbn.
  - destruct (N.eqb t t'); reflexivity.
  - destruct (N.eqb k t) eqn:E; cbn.
    + apply N.eqb_eq in E. subst k. destruct (N.eqb t t'); reflexivity.
    + destruct (N.eqb k t') eqn:E'.
      * destruct (N.eqb t t') eqn:E2; [|reflexivity].
        apply N.eqb_eq in E', E2. subst. rewrite N.eqb_refl in E. discriminate.
      * apply IH.
Qed.

Lemma push_keys m t v k : In k (map fst (push_amount m t v)) <-> k = t \/ In k (map fst m).
Proof.
  induction m as [|[k' vs] m IH]; cbn.
  - split; [intros [->|[]]; auto | intros [->|[]]; auto].
  - destruct (N.eqb k' t) eqn:E; cbn.
    + apply N.eqb_eq in E. subst. split; [tauto|]. intros [->|[->|H]]; auto.
    + rewrite IH. tauto.
Qed.

Lemma push_nodup m t v : NoDup (map fst m) -> NoDup (map fst (push_amount m t v)).
Proof.
  induction m as [|[k vs] m IH]; cbn; intros H.
  - constructor; [intros []|constructor].
  - inversion H as [|? ? Hn Hd]; subst. destruct (N.eqb k t) eqn:E; cbn.
    + constructor; assumption.
    + constructor; [|apply IH; assumption]. rewrite push_keys. intros [->|H']; [|tauto].
      rewrite N.eqb_refl in E. discriminate.
Qed.

Lemma pushes_nodup l : forall m, NoDup (map fst m) -> NoDup (map fst (pushes m l)).
Proof. induction l as [|[t v] l IH]; intros m H; cbn; [assumption|]. apply IH, push_nodup, H. Qed.

Definition proj (t : N) (l : list (N * Z)) : list Z :=
  map snd (filter (fun tv => N.eqb (fst tv) t) l).

Lemma pushes_entry l : forall m t, entry (pushes m l) t = entry m t ++ proj t l.
Proof.
  unfold proj. induction l as [|[t' v] l IH]; intros m t; cbn.
  - now rewrite app_nil_r.
  - unfold pushes in IH. rewrite IH, push_entry.
    destruct (N.eqb t' t); cbn; [now rewrite <- app_assoc|reflexivity].
Qed.

Lemma proj_ssum t l : zsum (proj t l) = ssum t l.
Proof.
  unfold proj. induction l as [|[t' v] l IH]; cbn; [reflexivity|].
  destruct (N.eqb t' t); cbn; unfold zsum in IH |- *; lia.
Qed.

Lemma entry_in m t vs : NoDup (map fst m) -> In (t, vs) m -> entry m t = vs.
Proof.
  induction m as [|[k ws] m IH]; cbn; [intros _ []|]. intros Hd [H|H].
  - injection H as -> ->. now rewrite N.eqb_refl.
  - inversion Hd as [|? ? Hn Hd']; subst. destruct (N.eqb k t) eqn:E.
    + apply N.eqb_eq in E. subst. exfalso. apply Hn. apply in_map_iff. exists (t, vs). auto.
    + apply IH; assumption.
Qed.

Lemma entry_absent m t : ~ In t (map fst m) -> entry m t = [].
Proof.
  induction m as [|[k ws] m IH]; cbn; intros H; [reflexivity|].
  destruct (N.eqb k t) eqn:E.
  - apply N.eqb_eq in E. tauto.
  - apply IH. tauto.
Qed.

(** i128 sums do not overflow for fewer than 2^62 amounts of 64 bits. *)
Lemma i128_sum_from_ok vs : forall acc,
  Forall (fun v => Z.abs v < 2 ^ 64) vs ->
  Z.abs acc + Z.of_nat (length vs) * 2 ^ 64 < 2 ^ 127 ->
  i128_sum_from acc vs = Ok (acc + zsum vs).
Proof.
  induction vs as [|v vs IH]; intros acc Hf Hb.
  - cbn. f_equal. lia.
  - inversion Hf as [|? ? Hv Hf']; subst.
    cbn [i128_sum_from]. unfold i128_add.
    cbn [length] in Hb.
    replace ((- 2 ^ 127 <=? acc + v) && (acc + v <? 2 ^ 127)) with true by (symmetry; lia).
    cbn [bind]. rewrite IH; [|assumption|lia]. f_equal. cbn. unfold zsum. lia.
Qed.

Lemma i128_sum_ok vs :
  Forall (fun v => Z.abs v < 2 ^ 64) vs -> Z.of_nat (length vs) < 2 ^ 62 ->
  i128_sum vs = Ok (zsum vs).
Proof. intros H1 H2. unfold i128_sum. rewrite i128_sum_from_ok; [reflexivity|assumption|lia]. Qed.

Lemma check_entries_spec m :
  (forall t vs, In (t, vs) m -> Forall (fun v => Z.abs v < 2 ^ 64) vs /\ Z.of_nat (length vs) < 2 ^ 62) ->
  (check_entries m = Ok tt <-> forall t vs, In (t, vs) m -> zsum vs = 0) /\
  (check_entries m = Ok tt \/ check_entries m = Err).
Proof.
  induction m as [|[t vs] m IH]; intros H.
  - cbn. split; [|auto]. split; [intros _ ? ? []|reflexivity].
  - cbn [check_entries]. destruct (H t vs (or_introl eq_refl)) as [H1 H2].
    rewrite i128_sum_ok by assumption. cbn [bind].
    destruct IH as [IH1 IH2]. { intros t' vs' Hi. apply (H t' vs'). now right. }
    destruct (Z.eqb_spec (zsum vs) 0) as [E|E].
    + split; [|assumption]. rewrite IH1. split.
      * intros Hm t' vs' [Hi|Hi]; [injection Hi as <- <-; assumption|eauto].
      * intros Hm t' vs' Hi. apply (Hm t' vs'). now right.
    + split; [|auto]. split; [discriminate|]. intros Hm. exfalso. apply E, (Hm t vs). now left.
Qed.

Lemma proj_in t l v : In v (proj t l) -> exists t', In (t', v) l.
Proof.
  unfold proj. intros H. apply in_map_iff in H. destruct H as [[t' v'] [<- H]].
  apply filter_In in H. exists t'. tauto.
Qed.

Lemma filter_len {A} (f : A -> bool) l : (length (filter f l) <= length l)%nat.
Proof. induction l as [|x l IH]; cbn; [lia|]. destruct (f x); cbn; lia. Qed.

Lemma proj_length t l : (length (proj t l) <= length l)%nat.
Proof. unfold proj. rewrite map_length. apply filter_len. Qed.

Lemma check_pushes l :
  Forall (fun tv => Z.abs (snd tv) < 2 ^ 64) l -> Z.of_nat (length l) < 2 ^ 62 ->
  (check_entries (pushes [] l) = Ok tt <-> forall t, ssum t l = 0) /\
  (check_entries (pushes [] l) = Ok tt \/ check_entries (pushes [] l) = Err).
Proof.
  intros Hf Hl.
  assert (Hd : NoDup (map fst (pushes [] l))) by (apply pushes_nodup; constructor).
  assert (He : forall t vs, In (t, vs) (pushes [] l) -> vs = proj t l).
  { intros t vs Hi. apply (entry_in _ _ _ Hd) in Hi. rewrite pushes_entry in Hi. cbn in Hi. auto. }
  destruct (check_entries_spec (pushes [] l)) as [H1 H2].
  { intros t vs Hi. rewrite (He _ _ Hi). split.
    - apply Forall_forall. intros v Hv. apply proj_in in Hv. destruct Hv as [t' Hv].
      rewrite Forall_forall in Hf. apply (Hf _ Hv).
    - pose proof (proj_length t l). lia. }
  split; [|assumption]. rewrite H1. split.
  - intros H t. rewrite <- proj_ssum.
    destruct (in_dec N.eq_dec t (map fst (pushes [] l))) as [Hi|Hi].
    + apply in_map_iff in Hi. destruct Hi as [[t' vs] [<- Hi]].
      cbn [fst]. rewrite <- (He _ _ Hi). apply (H _ _ Hi).
    + apply entry_absent in Hi. rewrite pushes_entry in Hi. cbn in Hi. now rewrite Hi.
  - intros H t vs Hi. rewrite (He _ _ Hi), proj_ssum. apply H.
Qed.

Lemma check_pushes_iff l :
  Forall (fun tv => Z.abs (snd tv) < 2 ^ 64) l -> Z.of_nat (length l) < 2 ^ 62 ->
  (check_entries (pushes [] l) = Ok tt <-> forall t, ssum t l = 0).
Proof. intros H1 H2. apply check_pushes; assumption. Qed.

(** ** C09 *)

Definition signed (s : Z) (l : list (N * N)) : list (N * Z) :=
  map (fun '(a, t) => (t, s * Z.of_N a)) l.

Lemma ssum_signed t s l : ssum t (signed s l) = s * total t l.
Proof.
  induction l as [|[a t'] l IH]; cbn; [lia|].
  unfold signed in IH. rewrite IH. destruct (N.eqb t' t); lia.
Qed.

Section Plain.
Context (E : pgroup).

Lemma collect_plain_ok s l : forall m m',
  collect_plain E s m l = Ok m' <->
  exists pl, Forall2 transparent l pl /\ m' = pushes m (signed s pl).
Proof.
  induction l as [|r l IH]; intros m m'; cbn [collect_plain].
  - split.
    + intros H. injection H as <-. exists []. split; [constructor|reflexivity].
    + intros [pl [H ->]]. inversion H; subst. reflexivity.
  - unfold get_asset_type, get_amount. destruct (b_type r) as [c|t] eqn:Et; cbn [bind].
    + split; [discriminate|]. intros [pl [H _]]. inversion H as [|? p ? pl' Hp _]; subst.
      destruct Hp as [_ Hp]. congruence.
    + destruct (b_amount r) as [lo hi|a] eqn:Ea; cbn [bind].
      * split; [discriminate|]. intros [pl [H _]]. inversion H as [|? p ? pl' Hp _]; subst.
        destruct Hp as [Hp _]. congruence.
      * rewrite IH. split.
        -- intros [pl [H ->]]. exists ((a, t) :: pl). split; [|reflexivity].
           constructor; [split; assumption|assumption].
        -- intros [pl [H ->]]. inversion H as [|? [a' t'] ? pl' Hp Hpl]; subst.
           exists pl'. split; [assumption|]. destruct Hp as [Hp1 Hp2].
           cbn in Hp1, Hp2. rewrite Ea in Hp1. rewrite Et in Hp2.
           injection Hp1 as <-. injection Hp2 as <-. reflexivity.
Qed.

Lemma collect_plain_not_panic s l : forall m, collect_plain E s m l <> Panic.
Proof.
  induction l as [|r l IH]; intros m; cbn [collect_plain]; [discriminate|].
  destruct (b_type r); cbn; [discriminate|]. destruct (b_amount r); cbn; [discriminate|]. apply IH.
Qed.

Lemma plain_bound (l : list (N * N)) s : (s = 1 \/ s = -1) ->
  Forall (fun at_ => is_u64 (fst at_)) l -> Forall (fun tv => Z.abs (snd tv) < 2 ^ 64) (signed s l).
Proof.
  intros Hs H. apply Forall_forall. intros [t v] Hi. apply in_map_iff in Hi.
  destruct Hi as [[a t'] [He Hi]]. injection He as <- <-. rewrite Forall_forall in H.
  apply H in Hi. unfold is_u64 in Hi. cbn in *. destruct Hs; subst s; lia.
Qed.

Lemma signed_conserved ins outs :
  (forall t, ssum t (signed 1 ins ++ signed (-1) outs) = 0) <-> conserved ins outs.
Proof.
  unfold conserved. split; intros H t; specialize (H t);
    rewrite ssum_app, !ssum_signed in *; lia.
Qed.

Lemma verify_plain_asset_mix_iff ins outs :
  Z.of_nat (length ins + length outs) < 2 ^ 62 ->
  (forall r a, In r (ins ++ outs) -> b_amount r = APlain a -> is_u64 a) ->
  (verify_plain_asset_mix E ins outs = Ok tt <->
   exists pi po, Forall2 transparent ins pi /\ Forall2 transparent outs po /\ conserved pi po).
Proof.
  intros Hl Hu. unfold verify_plain_asset_mix.
  assert (U : forall l pl, incl l (ins ++ outs) -> Forall2 transparent l pl ->
              Forall (fun at_ => is_u64 (fst at_)) pl).
  { intros l pl Hi H. induction H as [|r [a t] l pl [Ha Ht] H IH]; constructor.
    - apply (Hu r); [apply Hi; now left|assumption].
    - apply IH. intros x Hx. apply Hi. now right. }
  assert (Key : forall pi po, Forall2 transparent ins pi -> Forall2 transparent outs po ->
     (check_entries (pushes (pushes [] (signed 1 pi)) (signed (-1) po)) = Ok tt <-> conserved pi po)).
  { intros pi po Hi Ho. rewrite <- pushes_app.
    rewrite check_pushes_iff; [apply signed_conserved| |].
    - apply Forall_app. split; apply plain_bound; auto; eapply U; eauto;
        intros x Hx; apply in_or_app; auto.
    - rewrite app_length. unfold signed. rewrite !map_length.
      rewrite <- (Forall2_len _ _ _ Hi), <- (Forall2_len _ _ _ Ho). lia. }
  split.
  - intros H.
    destruct (collect_plain E 1 [] ins) as [m| |] eqn:E1; cbn [bind] in H; try discriminate.
    destruct (collect_plain E (-1) m outs) as [m'| |] eqn:E2; cbn [bind] in H; try discriminate.
    apply collect_plain_ok in E1. destruct E1 as [pi [Hi ->]].
    apply collect_plain_ok in E2. destruct E2 as [po [Ho ->]].
    exists pi, po. split; [assumption|]. split; [assumption|]. now apply Key.
  - intros [pi [po [Hi [Ho Hc]]]].
    assert (E1 : collect_plain E 1 [] ins = Ok (pushes [] (signed 1 pi)))
      by (apply collect_plain_ok; exists pi; auto).
    rewrite E1. cbn [bind].
    assert (E2 : collect_plain E (-1) (pushes [] (signed 1 pi)) outs
                 = Ok (pushes (pushes [] (signed 1 pi)) (signed (-1) po)))
      by (apply collect_plain_ok; exists po; auto).
    rewrite E2. cbn [bind]. now apply Key.
Qed.
End Plain.

(** ** Decomposition of the batch loop *)
Section Batch.
Context (E : pgroup) (O : oracles E) (sc : N -> PF E).

Definition amount_work (b : xbody E O) : list (list (bar E) * list (bar E) * xrange_proof E O) :=
  match x_proof E O b with
  | ConfAll _ _ p _ | ConfAmount _ _ p => [(x_in E O b, x_out E O b, p)]
  | _ => []
  end.
Definition asset_work (b : xbody E O) : list (list (bar E) * list (bar E) * AP E O) :=
  match x_proof E O b with
  | ConfAll _ _ _ q | ConfAsset _ _ q => [(x_in E O b, x_out E O b, q)]
  | _ => []
  end.
Definition mix_work (b : xbody E O) : list (list (bar E) * list (bar E) * MP E O) :=
  match x_proof E O b with
  | AssetMix _ _ q => [(x_in E O b, x_out E O b, q)]
  | _ => []
  end.
Definition local_check (b : xbody E O) : res unit :=
  match x_proof E O b with
  | ConfAmount _ _ _ => verify_plain_asset E (x_in E O b) (x_out E O b)
  | ConfAsset _ _ _ => verify_plain_amounts E (x_in E O b) (x_out E O b)
  | NoProof _ _ => verify_plain_asset_mix E (x_in E O b) (x_out E O b)
  | _ => Ok tt
  end.

Lemma sort_bodies_ok bs : forall ca ct cm w,
  sort_bodies E O bs ca ct cm = Ok w <->
  Forall (fun b => local_check b = Ok tt) bs /\
  w = (ca ++ flat_map amount_work bs, ct ++ flat_map asset_work bs, cm ++ flat_map mix_work bs).
Proof.
  induction bs as [|b bs IH]; intros ca ct cm w; cbn [sort_bodies flat_map].
  - rewrite !app_nil_r. split.
    + intros H. injection H as <-. split; [constructor|reflexivity].
    + intros [_ ->]. reflexivity.
  - assert (R : forall (P Q : Prop) x, (P <-> Forall (fun b => local_check b = Ok tt) bs /\ Q) ->
               local_check b = x -> (x = Ok tt -> (P <-> Forall (fun b => local_check b = Ok tt) (b :: bs) /\ Q))).
    { intros P Q x H1 H2 H3. rewrite H1. split.
      - intros [H4 H5]. split; [constructor; [congruence|assumption]|assumption].
      - intros [H4 H5]. inversion H4; subst. split; assumption. }
    assert (N : forall x, local_check b = x -> x <> Ok tt ->
                ~ Forall (fun b => local_check b = Ok tt) (b :: bs)).
    { intros x H1 H2 H. inversion H; subst. congruence. }
    unfold local_check, amount_work, asset_work, mix_work in *.
    destruct (x_proof E O b) as [p|p|q|p q|] eqn:Ep.
    + apply (R _ _ (Ok tt)); [|reflexivity..].
      rewrite IH. cbn. rewrite <- !app_assoc. reflexivity.
    + destruct (verify_plain_asset E (x_in E O b) (x_out E O b)) as [[]| |] eqn:Ec; cbn [bind].
      * apply (R _ _ (Ok tt)); [|reflexivity..].
        rewrite IH. cbn. rewrite <- !app_assoc. reflexivity.
      * split; [discriminate|]. intros [H _]. exfalso. eapply N; [reflexivity|discriminate|exact H].
      * split; [discriminate|]. intros [H _]. exfalso. eapply N; [reflexivity|discriminate|exact H].
    + destruct (verify_plain_amounts E (x_in E O b) (x_out E O b)) as [[]| |] eqn:Ec; cbn [bind].
      * apply (R _ _ (Ok tt)); [|reflexivity..].
        rewrite IH. cbn. rewrite <- !app_assoc. reflexivity.
      * split; [discriminate|]. intros [H _]. exfalso. eapply N; [reflexivity|discriminate|exact H].
      * split; [discriminate|]. intros [H _]. exfalso. eapply N; [reflexivity|discriminate|exact H].
    + apply (R _ _ (Ok tt)); [|reflexivity..].
      rewrite IH. cbn. rewrite <- !app_assoc. reflexivity.
    + destruct (verify_plain_asset_mix E (x_in E O b) (x_out E O b)) as [[]| |] eqn:Ec; cbn [bind].
      * apply (R _ _ (Ok tt)); [|reflexivity..].
        rewrite IH. cbn. reflexivity.
      * split; [discriminate|]. intros [H _]. exfalso. eapply N; [reflexivity|discriminate|exact H].
      * split; [discriminate|]. intros [H _]. exfalso. eapply N; [reflexivity|discriminate|exact H].
Qed.

Lemma verify_bodies_ok bs :
  verify_bodies E O sc bs = Ok tt <->
  Forall (fun b => local_check b = Ok tt) bs /\
  batch_verify_confidential_amount E O (flat_map amount_work bs) = Ok tt /\
  batch_verify_confidential_asset E O sc (flat_map asset_work bs) = Ok tt /\
  batch_verify_asset_mix E O sc (flat_map mix_work bs) = Ok tt.
Proof.
  unfold verify_bodies. rewrite bind_ok. split.
  - intros [[[ca ct] cm] [H1 H2]]. apply sort_bodies_ok in H1. destruct H1 as [H1 H3].
    cbn in H3. injection H3 as -> -> ->. apply bind_ok in H2. destruct H2 as [[] [H2 H3]].
    apply bind_ok in H3. destruct H3 as [[] [H3 H4]]. auto.
  - intros [H1 [H2 [H3 H4]]]. exists (flat_map amount_work bs, flat_map asset_work bs, flat_map mix_work bs).
    split; [apply sort_bodies_ok; split; [assumption|reflexivity]|].
    rewrite H2. cbn [bind]. rewrite H3. cbn [bind]. exact H4.
Qed.

Lemma amount_nil : batch_verify_confidential_amount E O [] = Ok tt.
Proof. unfold batch_verify_confidential_amount. cbn. now rewrite v_ranges_nil. Qed.
Lemma asset_nil : batch_verify_confidential_asset E O sc [] = Ok tt.
Proof. unfold batch_verify_confidential_asset. cbn. now rewrite v_assets_nil. Qed.
Lemma mix_nil : batch_verify_asset_mix E O sc [] = Ok tt.
Proof. unfold batch_verify_asset_mix. cbn. now rewrite v_mixes_nil. Qed.

Lemma plain_body_lemma ins outs :
  Z.of_nat (length ins + length outs) < 2 ^ 62 ->
  (forall r a, In r (ins ++ outs) -> b_amount r = APlain a -> is_u64 a) ->
  (verify_bodies E O sc [mkXbody E O ins outs (NoProof E O)] = Ok tt <->
   exists pi po, Forall2 transparent ins pi /\ Forall2 transparent outs po /\ conserved pi po).
Proof.
  intros Hl Hu. rewrite verify_bodies_ok.
  cbn [flat_map app amount_work asset_work mix_work x_proof].
  rewrite amount_nil, asset_nil, mix_nil.
  rewrite <- (verify_plain_asset_mix_iff E ins outs Hl Hu). split.
  - intros [H _]. inversion H; subst. assumption.
  - intros H. repeat split. constructor; [assumption|constructor].
Qed.

Lemma plain_in_batch_lemma bs b :
  verify_bodies E O sc bs = Ok tt -> In b bs -> x_proof E O b = NoProof E O ->
  Z.of_nat (length (x_in E O b) + length (x_out E O b)) < 2 ^ 62 ->
  (forall r a, In r (x_in E O b ++ x_out E O b) -> b_amount r = APlain a -> is_u64 a) ->
  exists pi po, Forall2 transparent (x_in E O b) pi /\ Forall2 transparent (x_out E O b) po /\ conserved pi po.
Proof.
  intros H Hi Hp Hl Hu. apply verify_bodies_ok in H. destruct H as [H _].
  rewrite Forall_forall in H. apply H in Hi. unfold local_check in Hi. rewrite Hp in Hi.
  now apply verify_plain_asset_mix_iff in Hi.
Qed.
End Batch.

(** ** C10: the range-proof commitments *)
Lemma u64_pair_spec x : u64_to_u32_pair x = (x mod 2 ^ 32, x / 2 ^ 32)%N.
Proof.
  unfold u64_to_u32_pair. f_equal.
  - change 4294967295%N with (N.ones 32). now rewrite N.land_ones.
  - now rewrite N.shiftr_div_pow2.
Qed.

Section Ranges.
Context (E : pgroup) (O : oracles E) (sc : N -> PF E).
Add Field PFf : (f_th (PF E)).
Local Open Scope M_scope.

Lemma pedersen_add v r v' r' :
  pedersen E v r + pedersen E v' r' = pedersen E (v + v') (fadd r r').
Proof. unfold pedersen. rewrite fofZ_add. module_eq. Qed.
Lemma pedersen_sub v r v' r' :
  msub (pedersen E v r) (pedersen E v' r') = pedersen E (v - v') (fsub r r').
Proof. unfold pedersen. rewrite fofZ_sub. module_eq. Qed.
Lemma pedersen_scale k v r :
  fofZ k *: pedersen E v r = pedersen E (k * v) (fmul (fofZ k) r).
Proof. unfold pedersen. rewrite fofZ_mul. module_eq. Qed.
Lemma pedersen_0 : pedersen E 0 f0 = m0.
Proof. unfold pedersen. rewrite fofZ_0. module_eq. Qed.

Lemma msum_pedersen {A} (v : A -> Z) (r : A -> PF E) l :
  msum (map (fun o => pedersen E (v o) (r o)) l) = pedersen E (zsum (map v l)) (fsum (map r l)).
Proof.
  induction l as [|o l IH]; cbn [map].
  - symmetry. apply pedersen_0.
  - change (msum (pedersen E (v o) (r o) :: map (fun o => pedersen E (v o) (r o)) l))
      with (pedersen E (v o) (r o) + msum (map (fun o => pedersen E (v o) (r o)) l)).
    rewrite IH. apply pedersen_add.
Qed.

Lemma opens_limbs a o lh :
  opens a o -> limb_commitments E a = Ok lh ->
  lh = (pedersen E (op_lo o) (op_rlo o), pedersen E (op_hi o) (op_rhi o)).
Proof.
  unfold opens, limb_commitments. destruct a as [lo hi|x].
  - intros [H1 H2]. rewrite H1, H2. cbn. intros H. injection H as <-. reflexivity.
  - intros [H1 [H2 [H3 H4]]]. rewrite u64_pair_spec. intros H. injection H as <-.
    rewrite H1, H2, H3, H4. unfold pedersen, commit, fofN. f_equal; do 2 f_equal.
    + rewrite N2Z.inj_mod. reflexivity.
    + rewrite N2Z.inj_div. reflexivity.
Qed.

Lemma limbs_of_openings l ops cs :
  Forall2 (fun r o => opens (b_amount r) o) l ops ->
  mapM (fun r => limb_commitments E (b_amount r)) l = Ok cs ->
  cs = map (fun o => (pedersen E (op_lo o) (op_rlo o), pedersen E (op_hi o) (op_rhi o))) ops.
Proof.
  intros H. revert cs. induction H as [|r o l ops Ho H IH]; intros cs Hc; cbn in Hc.
  - injection Hc as <-. reflexivity.
  - apply bind_ok in Hc. destruct Hc as [c [Hc Hr]]. apply rmap_ok in Hr.
    destruct Hr as [cs' [Hr <-]]. cbn. f_equal; [|auto].
    eapply opens_limbs; eauto.
Qed.

Lemma zsum_app a b : zsum (a ++ b) = (zsum a + zsum b)%Z.
Proof. unfold zsum. induction a; cbn; lia. Qed.
Lemma zsum_cons a b : zsum (a :: b) = (a + zsum b)%Z.
Proof. reflexivity. Qed.
Lemma zsum_op_value (l : list (opening E)) :
  zsum (map op_value l) = (zsum (map op_lo l) + 2 ^ 32 * zsum (map op_hi l))%Z.
Proof.
  induction l as [|o l IH]; [reflexivity|]. cbn [map]. rewrite !zsum_cons, IH.
  unfold op_value. ring.
Qed.
Lemma fsum_blind (l : list (opening E)) :
  fsum (map blind_value l) =
  fadd (fsum (map op_rlo l)) (fmul (fofZ (2 ^ 32)) (fsum (map op_rhi l))).
Proof.
  unfold blind_value. generalize (fofZ (F := PF E) (2 ^ 32)) as k. intros k.
  induction l as [|o l IH]; cbn [map]; [cbn; ring|].
  rewrite !fsum_cons, IH. ring.
Qed.

Lemma flat_map_pairs {A} (f : A -> PG E * PG E) (l : list A) :
  flat_map (fun c => [compress E (fst c); compress E (snd c)]) (map f l)
  = map (compress E) (flat_map (fun o => [fst (f o); snd (f o)]) l).
Proof. induction l; cbn; [reflexivity|]. now rewrite IHl. Qed.

Lemma nth_Forall2_app {A B} (R : A -> B -> Prop) a x b m d :
  Forall2 R (a ++ x :: b) m -> R x (nth (length a) m d).
Proof.
  revert m. induction a as [|y a IH]; intros m H; cbn in *; inversion H; subst; cbn; auto.
Qed.

Lemma combine_relations (l : list (Z * PF E)) cs ex :
  Forall2 (fun c vr => decompress E c = Some (pedersen E (fst vr) (snd vr)) /\ 0 <= fst vr < 2 ^ 32) cs ex ->
  forall rest, cs = map (compress E) (map (fun a => pedersen E (fst a) (snd a)) l) ++ rest ->
  Forall (fun '(a, b) => pedersen E (fst a) (snd a) = pedersen E (fst b) (snd b) /\ 0 <= fst b < 2 ^ 32)
    (combine l ex) /\ (length l <= length ex)%nat.
Proof.
  intros H. revert l. induction H as [|c vr cs ex [Hc Hv] H IH]; intros l rest He.
  - destruct l; cbn in *; [split; [constructor|lia]|discriminate].
  - destruct l as [|a l]; cbn in *; [split; [constructor|lia]|].
    injection He as -> He. destruct (IH l rest He) as [IH1 IH2]. split; [|lia].
    constructor; [|assumption].
    rewrite decompress_compress in Hc. injection Hc as Hc. auto.
Qed.

Lemma flat_len (l : list (opening E)) : length (flat_openings l) = (2 * length l)%nat.
Proof.
  induction l as [|o l IH]; [reflexivity|].
  change (flat_openings (o :: l)) with ((op_lo o, op_rlo o) :: (op_hi o, op_rhi o) :: flat_openings l).
  cbn [length]. rewrite IH. lia.
Qed.

Lemma value_bound (l : list (opening E)) :
  Forall (limbs_in (2 ^ 32)) l -> 0 <= zsum (map op_value l) <= Z.of_nat (length l) * 2 ^ 64.
Proof.
  induction 1 as [|o l [H1 H2] H IH]; cbn [map zsum fold_right length]; [lia|].
  fold (zsum (map op_value l)) in *. unfold op_value in *. lia.
Qed.

Lemma relation_from_equal v r v' r' :
  pedersen E v r = pedersen E v' r' ->
  (fofZ (v - v') : PF E) *: gB E + fsub r r' *: gBb E = m0.
Proof.
  intros H. apply msub_0 in H. rewrite pedersen_sub in H. exact H.
Qed.

(** The arithmetic core: from accepted commitments and openings. *)
Lemma range_core q ins outs p cs ex iops oops :
  char_ge (PF E) q -> 2 ^ 200 <= q ->
  Z.of_nat (length ins) < 2 ^ 60 -> Z.of_nat (length outs) < 2 ^ 60 ->
  extract_value_commitments E O ins outs p = Ok cs ->
  Forall2 (fun c vr => decompress E c = Some (pedersen E (fst vr) (snd vr)) /\ 0 <= fst vr < 2 ^ 32) cs ex ->
  Forall2 (fun r o => opens (b_amount r) o) ins iops -> Forall (limbs_in (2 ^ 32)) iops ->
  Forall2 (fun r o => opens (b_amount r) o) outs oops -> Forall (limbs_in q) oops ->
  (Forall (limbs_in (2 ^ 32)) oops /\
   0 <= zsum (map op_value iops) - zsum (map op_value oops) < 2 ^ 64) \/
  exists ab, In ab (relation_candidates iops oops ex) /\ dlog_relation E ab.
Proof.
  intros Hq Hq2 Hli Hlo Hx Hex Hi Hib Ho Hob.
  unfold extract_value_commitments in Hx.
  apply bind_ok in Hx. destruct Hx as [ci [Hci Hx]].
  apply bind_ok in Hx. destruct Hx as [co [Hco Hx]].
  apply bind_ok in Hx. destruct Hx as [pl [Hpl Hx]].
  apply bind_ok in Hx. destruct Hx as [ph [Hph Hx]].
  match type of Hx with (if cp_eqb E (compress E ?a) (compress E ?b) then _ else _) = _ =>
    destruct (cp_eqb_spec E (compress E a) (compress E b)) as [Heq|]; [|discriminate];
    assert (Hd : a = b) by (pose proof (decompress_compress E a) as X; rewrite Heq, decompress_compress in X; congruence)
  end.
  injection Hx as Hcs. clear Heq.
  pose proof (limbs_of_openings _ _ _ Hi Hci) as Eci.
  pose proof (limbs_of_openings _ _ _ Ho Hco) as Eco.
  set (n := length oops).
  (* commitments of the outputs *)
  assert (Hfl : flat_map (fun c => [compress E (fst c); compress E (snd c)]) co
                = map (compress E) (map (fun a => pedersen E (fst a) (snd a)) (flat_openings oops))).
  { rewrite Eco, flat_map_pairs. f_equal. clear. induction oops as [|o l IH]; cbn; [reflexivity|].
    f_equal. f_equal. exact IH. }
  destruct (combine_relations (flat_openings oops) cs ex Hex
             ([xrp_low E O p; xrp_high E O p] ++ repeat (compress E m0)
               (N.to_nat (min_greater_equal_power_of_two (2 * N.of_nat (length outs) + 2)) -
                length (flat_map (fun c => [compress E (fst c); compress E (snd c)]) co ++ [xrp_low E O p; xrp_high E O p]))))
    as [Hrel Hlen].
  { rewrite <- Hcs. unfold pad_to. rewrite <- Hfl, <- app_assoc. reflexivity. }
  (* the difference commitments *)
  assert (Hlenf : length (flat_map (fun c => [compress E (fst c); compress E (snd c)]) co) = (2 * n)%nat).
  { rewrite Hfl, !map_length. apply flat_len. }
  unfold pad_to in Hcs. rewrite <- app_assoc in Hcs.
  set (dlo := nth (2 * n) ex (0, f0 : PF E)). set (dhi := nth (2 * n + 1) ex (0, f0 : PF E)).
  assert (Hdlo : decompress E (xrp_low E O p) = Some (pedersen E (fst dlo) (snd dlo)) /\ 0 <= fst dlo < 2 ^ 32).
  { rewrite <- Hcs in Hex. apply (nth_Forall2_app _ _ _ _ _ (0, f0)) in Hex.
    rewrite Hlenf in Hex. exact Hex. }
  assert (Hdhi : decompress E (xrp_high E O p) = Some (pedersen E (fst dhi) (snd dhi)) /\ 0 <= fst dhi < 2 ^ 32).
  { rewrite <- Hcs in Hex.
    change ([xrp_low E O p; xrp_high E O p] ++ ?l) with ([xrp_low E O p] ++ xrp_high E O p :: l) in Hex.
    rewrite app_assoc in Hex.
    apply (nth_Forall2_app _ _ _ _ _ (0, f0)) in Hex.
    rewrite app_length, Hlenf in Hex. exact Hex. }
  destruct Hdlo as [Hdlo Bdlo]. destruct Hdhi as [Hdhi Bdhi].
  rewrite Hdlo in Hpl. injection Hpl as <-. rewrite Hdhi in Hph. injection Hph as <-.
  (* the balance equation *)
  set (T := (zsum (map op_value iops) - zsum (map op_value oops) - (fst dlo + 2 ^ 32 * fst dhi))%Z).
  set (R := fsub (fsub (fsum (map blind_value iops)) (fsum (map blind_value oops)))
                 (fadd (snd dlo) (fmul (fofZ (2 ^ 32)) (snd dhi)))).
  assert (HT : (fofZ T : PF E) *: gB E + R *: gBb E = m0).
  { rewrite Eci, Eco in Hd. rewrite !map_map in Hd. cbn [fst snd] in Hd.
    rewrite !msum_pedersen in Hd. unfold pow2_32, fofN in Hd.
    change (Z.of_N 4294967296) with (2 ^ 32)%Z in Hd.
    rewrite !pedersen_sub, !pedersen_scale, !pedersen_add in Hd.
    apply relation_from_equal in Hd. rewrite <- Hd. f_equal.
    - f_equal. f_equal. unfold T. rewrite !zsum_op_value. ring.
    - f_equal. unfold R. rewrite !fsum_blind. ring. }
  (* either some candidate is nontrivial, or all values agree *)
  destruct (Exists_dec (fun ab : PF E * PF E => fst ab <> f0) (relation_candidates iops oops ex)) as [Hex2|Hall].
  { intros ab. destruct (f_dec (fst ab) f0) as [e|e]; [right; intros H; contradiction|left; assumption]. }
  - right. apply Exists_exists in Hex2. destruct Hex2 as [ab [Hin Hne]].
    exists ab. split; [assumption|]. split; [assumption|].
    unfold relation_candidates in Hin. destruct Hin as [<-|Hin]; [exact HT|].
    apply in_map_iff in Hin. destruct Hin as [[a b] [<- Hin]]. cbn [fst snd].
    rewrite Forall_forall in Hrel. apply Hrel in Hin. destruct Hin as [Hin _].
    now apply relation_from_equal.
  - left.
    assert (Hz : forall ab, In ab (relation_candidates iops oops ex) -> fst ab = f0).
    { intros ab Hin. destruct (f_dec (fst ab) f0) as [e|e]; [assumption|].
      exfalso. apply Hall, Exists_exists. exists ab. auto. }
    assert (Hflat : Forall (fun vr => 0 <= fst vr < 2 ^ 32) (flat_openings oops)).
    { assert (Hqf : Forall (fun vr => 0 <= fst vr < q) (flat_openings oops)).
      { clear -Hob. induction Hob as [|o l [H1 H2] H IH]; cbn; repeat constructor; cbn; try lia; assumption. }
      apply Forall_forall. intros a Ha.
      destruct (In_nth_error _ _ Ha) as [i Hia].
      assert (Hib2 : exists b, nth_error ex i = Some b).
      { destruct (nth_error ex i) as [b|] eqn:Eb; [eauto|].
        apply nth_error_None in Eb. assert (i < length (flat_openings oops))%nat by (apply nth_error_Some; congruence). lia. }
      destruct Hib2 as [b Hib2].
      assert (Hin : In (a, b) (combine (flat_openings oops) ex)).
      { clear -Hia Hib2. revert i ex Hia Hib2. generalize (flat_openings oops) as l.
        induction l as [|x l IH]; intros [|i] ex Hia Hib2; cbn in *; try discriminate;
          destruct ex as [|y ex]; cbn in *; try discriminate.
        - left. congruence.
        - right. eauto. }
      rewrite Forall_forall in Hrel. pose proof (Hrel _ Hin) as [_ Hb].
      assert (Hc : fofZ (F := PF E) (fst a - fst b) = f0).
      { apply (Hz (fofZ (fst a - fst b), fsub (snd a) (snd b))). right.
        apply in_map_iff. exists (a, b). auto. }
      rewrite Forall_forall in Hqf. pose proof (Hqf _ Ha) as Hqa.
      rewrite fofZ_sub in Hc. apply (proj1 (fsub_0 _ _ _)) in Hc.
      apply (fofZ_inj (PF E) q) in Hc; [lia|assumption|lia]. }
    assert (Hout : Forall (limbs_in (2 ^ 32)) oops).
    { clear -Hflat. induction oops as [|o l IH]; constructor.
      - cbn in Hflat. inversion Hflat as [|? ? H1 H2]; subst. inversion H2; subst. split; assumption.
      - apply IH. cbn in Hflat. inversion Hflat as [|? ? H1 H2]; subst. inversion H2; subst. assumption. }
    split; [assumption|].
    assert (HT0 : T = 0).
    { destruct (Z.eq_dec T 0) as [e|e]; [assumption|exfalso].
      apply (fofZ_nonzero (PF E) q T Hq).
      - pose proof (value_bound _ Hib). pose proof (value_bound _ Hout).
        rewrite <- (Forall2_len _ _ _ Hi) in *. rewrite <- (Forall2_len _ _ _ Ho) in *.
        subst T. lia.
      - exact e.
      - apply (Hz (fofZ T, R)). left. reflexivity. }
    subst T. lia.
Qed.

Lemma confidential_amount_lemma ext q bs b p iops oops :
  char_ge (PF E) q -> 2 ^ 200 <= q -> range_extractor E O ext ->
  verify_bodies E O sc bs = Ok tt -> In b bs ->
  (x_proof E O b = ConfAmount E O p \/ exists ap, x_proof E O b = ConfAll E O p ap) ->
  Z.of_nat (length (x_in E O b)) < 2 ^ 60 -> Z.of_nat (length (x_out E O b)) < 2 ^ 60 ->
  Forall2 (fun r o => opens (b_amount r) o) (x_in E O b) iops -> Forall (limbs_in (2 ^ 32)) iops ->
  Forall2 (fun r o => opens (b_amount r) o) (x_out E O b) oops -> Forall (limbs_in q) oops ->
  (Forall (limbs_in (2 ^ 32)) oops /\
   0 <= zsum (map op_value iops) - zsum (map op_value oops) < 2 ^ 64) \/
  exists cs ab, extract_value_commitments E O (x_in E O b) (x_out E O b) p = Ok cs /\
    In ab (relation_candidates iops oops (ext (xrp E O p) cs)) /\ dlog_relation E ab.
Proof.
  intros Hq Hq2 Hext Hv Hb Hp Hli Hlo Hi Hib Ho Hob.
  apply verify_bodies_ok in Hv. destruct Hv as [_ [Hv _]].
  unfold batch_verify_confidential_amount in Hv.
  apply bind_ok in Hv. destruct Hv as [css [Hm Hv]].
  match type of Hv with (if ?x then _ else _) = _ => destruct x eqn:Hr; [|discriminate] end.
  apply mapM_ok in Hm.
  assert (Hw : In (x_in E O b, x_out E O b, p) (flat_map (amount_work E O) bs)).
  { apply in_flat_map. exists b. split; [assumption|]. unfold amount_work.
    destruct Hp as [Hp|[ap Hp]]; rewrite Hp; now left. }
  assert (Hin : exists cs, extract_value_commitments E O (x_in E O b) (x_out E O b) p = Ok cs /\
      In (xrp E O p, cs) (combine (map (fun '(_, _, p) => xrp E O p) (flat_map (amount_work E O) bs)) css)).
  { clear -Hm Hw. revert Hw. induction Hm as [|[[i o] p'] cs l css Hc Hm IH]; intros Hw; [destruct Hw|].
    destruct Hw as [Hw|Hw].
    - injection Hw as -> -> ->. exists cs. split; [assumption|]. now left.
    - destruct (IH Hw) as [cs' [H1 H2]]. exists cs'. split; [assumption|]. now right. }
  destruct Hin as [cs [Hcs Hin]].
  destruct (range_core q (x_in E O b) (x_out E O b) p cs (ext (xrp E O p) cs) iops oops
              Hq Hq2 Hli Hlo Hcs (Hext _ Hr _ _ Hin) Hi Hib Ho Hob) as [H|[ab H]]; [left; exact H|].
  right. exists cs, ab. tauto.
Qed.
End Ranges.

(** ** Asset types *)
Section Types.
Context (E : pgroup) (O : oracles E) (sc : N -> PF E).
Add Field PFf2 : (f_th (PF E)).
Local Open Scope M_scope.

Lemma type_opening t o c :
  opens_type sc t o -> type_commitment E sc t = Ok c -> c = fst o *: gB E + snd o *: gBb E.
Proof.
  unfold opens_type, type_commitment. destruct t as [c'|t].
  - intros ->. cbn. congruence.
  - intros [-> ->] H. injection H as <-. reflexivity.
Qed.

Lemma types_core cs ex l ops :
  Forall2 (fun c r => c = fst ex *: gB E + r *: gBb E) cs (snd ex) ->
  mapM (fun r => type_commitment E sc (b_type r)) l = Ok cs ->
  Forall2 (fun r o => opens_type sc (b_type r) o) l ops ->
  all_same (map fst ops) \/
  exists ab, In ab (type_candidates ops ex) /\ dlog_relation E ab.
Proof.
  intros Hex Hm Ho. apply mapM_ok in Hm.
  assert (H : Forall2 (fun o r => fst o *: gB E + snd o *: gBb E = fst ex *: gB E + r *: gBb E) ops (snd ex)).
  { clear -Hex Hm Ho. destruct ex as [v rs]. cbn [fst snd] in *. revert rs ops Hex Ho.
    induction Hm as [|r c l cs Hc Hm IH]; intros rs ops Hex Ho.
    - inversion Ho; subst. inversion Hex; subst. constructor.
    - inversion Ho as [|? o ? ops' H1 H2]; subst. inversion Hex as [|? r' ? rs' H3 H4]; subst.
      constructor; [|auto]. rewrite <- (type_opening _ _ _ H1 Hc). reflexivity. }
  destruct (Exists_dec (fun ab : PF E * PF E => fst ab <> f0) (type_candidates ops ex)) as [Hx|Hall].
  { intros ab. destruct (f_dec (fst ab) f0) as [e|e]; [right; intros Hn; contradiction|left; assumption]. }
  - right. apply Exists_exists in Hx. destruct Hx as [ab [Hin Hne]].
    exists ab. split; [assumption|]. split; [assumption|].
    unfold type_candidates in Hin. apply in_map_iff in Hin. destruct Hin as [[o r] [<- Hin]].
    cbn [fst snd]. assert (Heq : fst o *: gB E + snd o *: gBb E = fst ex *: gB E + r *: gBb E).
    { clear -H Hin. induction H as [|? ? ? ? H1 H IH]; [destruct Hin|].
      destruct Hin as [Hin|Hin]; [injection Hin as <- <-; exact H1|auto]. }
    apply msub_0 in Heq. rewrite <- Heq. module_eq.
  - left. assert (Hz : Forall (fun o => fst o = fst ex) ops).
    { assert (Hz : forall ab, In ab (type_candidates ops ex) -> fst ab = f0).
      { intros ab Hin. destruct (f_dec (fst ab) f0) as [e|e]; [assumption|].
        exfalso. apply Hall, Exists_exists. exists ab. auto. }
      clear -H Hz. unfold type_candidates in Hz. destruct ex as [v rs]. cbn [fst snd] in *.
      induction H as [|o r ops rs H1 H IH]; constructor.
      - specialize (Hz (fsub (fst o) v, fsub (snd o) r)). cbn in Hz.
        apply fsub_0. apply Hz. now left.
      - apply IH. intros ab Hin. apply Hz. now right. }
    intros x y Hx Hy. apply in_map_iff in Hx, Hy. destruct Hx as [a [<- Ha]], Hy as [b [<- Hb]].
    rewrite Forall_forall in Hz. rewrite (Hz _ Ha), (Hz _ Hb). reflexivity.
Qed.

Lemma confidential_asset_lemma ext bs b q ops :
  asset_extractor E O ext ->
  verify_bodies E O sc bs = Ok tt -> In b bs ->
  (x_proof E O b = ConfAsset E O q \/ exists p, x_proof E O b = ConfAll E O p q) ->
  Forall2 (fun r o => opens_type sc (b_type r) o) (x_in E O b ++ x_out E O b) ops ->
  all_same (map fst ops) \/
  exists cs ab, mapM (fun r => type_commitment E sc (b_type r)) (x_in E O b ++ x_out E O b) = Ok cs /\
     In ab (type_candidates ops (ext q cs)) /\ dlog_relation E ab.
Proof.
  intros Hext Hv Hb Hp Ho.
  apply verify_bodies_ok in Hv. destruct Hv as [_ [_ [Hv _]]].
  unfold batch_verify_confidential_asset in Hv.
  apply bind_ok in Hv. destruct Hv as [css [Hm Hv]].
  destruct (v_assets E O css) eqn:Hr; [|discriminate].
  apply mapM_ok in Hm.
  assert (Hw : In (x_in E O b, x_out E O b, q) (flat_map (asset_work E O) bs)).
  { apply in_flat_map. exists b. split; [assumption|]. unfold asset_work.
    destruct Hp as [Hp|[ap Hp]]; rewrite Hp; now left. }
  destruct (Forall2_in_l _ _ _ _ Hm Hw) as [[cs q'] [Hin Hc]].
  apply rmap_ok in Hc. destruct Hc as [cs' [Hc He]]. injection He as -> <-.
  destruct (types_core cs (ext q cs) _ ops (Hext _ Hr _ _ Hin) Hc Ho) as [H|[ab H]]; [left; exact H|].
  right. exists cs, ab. tauto.
Qed.

Lemma plain_types_lemma bs b p :
  verify_bodies E O sc bs = Ok tt -> In b bs -> x_proof E O b = ConfAmount E O p ->
  exists t, Forall (fun r => b_type r = TPlain t) (x_in E O b ++ x_out E O b).
Proof.
  intros Hv Hb Hp. apply verify_bodies_ok in Hv. destruct Hv as [Hv _].
  rewrite Forall_forall in Hv. apply Hv in Hb. unfold local_check in Hb. rewrite Hp in Hb.
  unfold verify_plain_asset in Hb. apply bind_ok in Hb. destruct Hb as [ts [Hm Hb]].
  destruct (all_equal ts) eqn:Ha; [|discriminate]. apply mapM_ok in Hm.
  destruct ts as [|t ts].
  - inversion Hm; subst. exists 0%N. constructor.
  - exists t. cbn in Ha. rewrite forallb_forall in Ha.
    apply Forall_forall. intros r Hr. destruct (Forall2_in_l _ _ _ _ Hm Hr) as [t' [Ht Hg]].
    unfold get_asset_type in Hg. destruct (b_type r) as [|t2]; [discriminate|]. injection Hg as ->.
    destruct Ht as [->|Ht]; [reflexivity|]. apply Ha, N.eqb_eq in Ht. now subst.
Qed.

Lemma safe_sum_zsum l : Z.of_N (safe_sum_u64 l) = zsum (map Z.of_N l).
Proof. unfold safe_sum_u64, zsum. induction l as [|x l IH]; cbn; [reflexivity|]. rewrite N2Z.inj_add, IH. reflexivity. Qed.

Lemma plain_amounts_lemma bs b q :
  verify_bodies E O sc bs = Ok tt -> In b bs -> x_proof E O b = ConfAsset E O q ->
  exists ai ao, Forall2 (fun r a => b_amount r = APlain a) (x_in E O b) ai /\
                Forall2 (fun r a => b_amount r = APlain a) (x_out E O b) ao /\
                zsum (map Z.of_N ai) = zsum (map Z.of_N ao).
Proof.
  intros Hv Hb Hp. apply verify_bodies_ok in Hv. destruct Hv as [Hv _].
  rewrite Forall_forall in Hv. apply Hv in Hb. unfold local_check in Hb. rewrite Hp in Hb.
  unfold verify_plain_amounts in Hb. apply bind_ok in Hb. destruct Hb as [ai [Hi Hb]].
  apply bind_ok in Hb. destruct Hb as [ao [Ho Hb]].
  destruct (N.eqb_spec (safe_sum_u64 ai) (safe_sum_u64 ao)) as [He|]; [|discriminate].
  apply mapM_ok in Hi, Ho.
  assert (X : forall l a, Forall2 (fun (x : bar E) y => get_amount E (b_amount x) = Ok y) l a ->
              Forall2 (fun r a => b_amount r = APlain a) l a).
  { intros l a. apply Forall2_impl. intros r y. unfold get_amount. destruct (b_amount r); congruence. }
  exists ai, ao. split; [auto|]. split; [auto|]. rewrite <- !safe_sum_zsum. congruence.
Qed.
End Types.

(** ** C12: classification *)
Section Kinds.
Context (E : pgroup).

Lemma amount_conf_iff (r : oar E) : amount_conf E (o_bar E r) = true <-> hides_amount r.
Proof.
  unfold amount_conf, hides_amount. destruct (b_amount (o_bar E r)); split; try easy; eauto.
  intros [? [? ?]]; discriminate.
Qed.
Lemma type_conf_iff (r : oar E) : type_conf E (o_bar E r) = true <-> hides_type r.
Proof.
  unfold type_conf, hides_type. destruct (b_type (o_bar E r)); split; try easy; eauto.
  intros [? ?]; discriminate.
Qed.

Lemma kfold t0 l : forall k,
  let k' := fold_left (kstep E t0) l k in
  (k_multi k' = true <-> k_multi k = true \/ exists r, In r l /\ o_type E r <> t0) /\
  (k_all k' = true <-> k_all k = true \/ exists r, In r l /\ hides_amount r /\ hides_type r) /\
  (k_amt k' = true <-> k_amt k = true \/ exists r, In r l /\ hides_amount r /\ ~ hides_type r) /\
  (k_ty k' = true <-> k_ty k = true \/ exists r, In r l /\ ~ hides_amount r /\ hides_type r).
Proof.
  induction l as [|r l IH]; intros k; cbn [fold_left].
  - cbn. repeat split; try (intros H; left; exact H); intros [H|[x [[] _]]]; exact H.
  - specialize (IH (kstep E t0 k r)). cbn in IH. destruct IH as [I1 [I2 [I3 I4]]].
    assert (X : forall (P : oar E -> Prop), (exists x, In x (r :: l) /\ P x) <-> P r \/ exists x, In x l /\ P x).
    { intros P. split.
      - intros [x [[->|Hi] Hp]]; [now left|right; eauto].
      - intros [Hp|[x [Hi Hp]]]; [exists r; split; [now left|assumption]|exists x; split; [now right|assumption]]. }
    cbn. rewrite I1, I2, I3, I4, !X. rewrite <- !amount_conf_iff, <- !type_conf_iff.
    unfold kstep.
    destruct (N.eqb_spec t0 (o_type E r)) as [e|e];
      destruct (amount_conf E (o_bar E r)), (type_conf E (o_bar E r)); cbn;
      repeat split; intros; try tauto; intuition congruence.
Qed.
End Kinds.

Section Kinds2.
Context (E : pgroup) (O : oracles E) (sc : N -> PF E).

Lemma kind_lemma ins outs k : kind_of E ins outs = Ok k ->
  let l := ins ++ outs in
  match k with
  | NonConfidential_SingleAsset => ~ several_types E l /\ ~ some_hides_amount E l /\ ~ some_hides_type E l
  | ConfAmount_SingleAsset => ~ several_types E l /\ some_hides_amount E l /\ ~ some_hides_type E l
  | ConfAsset_SingleAsset => ~ several_types E l /\ ~ some_hides_amount E l /\ some_hides_type E l
  | Confidential_SingleAsset => ~ several_types E l /\ some_hides_amount E l /\ some_hides_type E l
  | Confidential_MultiAsset => several_types E l /\ (some_hides_amount E l \/ some_hides_type E l)
  | NonConfidential_MultiAsset => several_types E l /\ ~ some_hides_amount E l /\ ~ some_hides_type E l
  end.
Proof.
  unfold kind_of. destruct ins as [|i0 ins]; [discriminate|]. intros H. apply Ok_inj in H.
  set (l := (i0 :: ins) ++ outs) in *. cbv zeta.
  pose proof (kfold E (o_type E i0) l (mkKf false false false false)) as K. cbv zeta in K.
  cbn [k_multi k_all k_amt k_ty] in K.
  set (k' := fold_left (kstep E (o_type E i0)) l (mkKf false false false false)) in *.
  destruct K as [K1 [K2 [K3 K4]]].
  assert (Hm : k_multi k' = true <-> several_types E l).
  { rewrite K1. unfold several_types. split.
    - intros [Hx|[r [Hi Hr]]]; [discriminate|]. exists r, i0. split; [assumption|]. split; [now left|assumption].
    - intros [r [s [Hr [Hs Hn]]]]. right. destruct (N.eq_dec (o_type E r) (o_type E i0)) as [e|e].
      + exists s. split; [assumption|]. congruence.
      + exists r. auto. }
  assert (Da : forall r : oar E, hides_amount r \/ ~ hides_amount r).
  { intros r. rewrite <- amount_conf_iff. destruct (amount_conf E (o_bar E r)); [now left|right; discriminate]. }
  assert (Dt : forall r : oar E, hides_type r \/ ~ hides_type r).
  { intros r. rewrite <- type_conf_iff. destruct (type_conf E (o_bar E r)); [now left|right; discriminate]. }
  assert (Ha : k_all k' = true \/ k_amt k' = true <-> some_hides_amount E l).
  { rewrite K2, K3. unfold some_hides_amount. split.
    - intros [[?|[r Hr]]|[?|[r Hr]]]; try discriminate; exists r; tauto.
    - intros [r [Hi Hr]]. destruct (Dt r); [left|right]; right; exists r; tauto. }
  assert (Ht : k_all k' = true \/ k_ty k' = true <-> some_hides_type E l).
  { rewrite K2, K4. unfold some_hides_type. split.
    - intros [[?|[r Hr]]|[?|[r Hr]]]; try discriminate; exists r; tauto.
    - intros [r [Hi Hr]]. destruct (Da r); [left|right]; right; exists r; tauto. }
  rewrite <- H. clear H k K1 K2 K3 K4 Da Dt.
  generalize dependent (several_types E l). generalize dependent (some_hides_amount E l).
  generalize dependent (some_hides_type E l). clearbody k'. clear.
  intros P Hp Q Hq R Hr.
  destruct (k_multi k'), (k_all k'), (k_amt k'), (k_ty k'); cbn;
    intuition congruence.
Qed.

Lemma kind_panic outs : kind_of E [] outs = Panic.
Proof. reflexivity. Qed.

(** check_asset_amount *)
Lemma collect_open_pushes s l m : collect_open E s m l = pushes m (signed s (map open_view l)).
Proof.
  unfold collect_open, pushes, signed. revert m. induction l as [|r l IH]; intros m; cbn; [reflexivity|].
  apply IH.
Qed.

Lemma check_asset_amount_iff ins outs :
  Forall (fun r => is_u64 (o_amount E r)) (ins ++ outs) ->
  Z.of_nat (length ins + length outs) < 2 ^ 62 ->
  (check_asset_amount E ins outs = Ok tt <-> conserved (map open_view ins) (map open_view outs)).
Proof.
  intros Hu Hl. unfold check_asset_amount. rewrite !collect_open_pushes, <- pushes_app.
  rewrite check_pushes_iff; [apply signed_conserved| |].
  - apply Forall_app in Hu. destruct Hu as [H1 H2].
    apply Forall_app. split; apply plain_bound; auto; apply Forall_map; assumption.
  - rewrite app_length. unfold signed. rewrite !map_length. lia.
Qed.

(** What kind of proof a generated body carries, and that it is balanced. *)
Lemma gen_lemma pr pa pm ins outs b :
  Forall (fun r => is_u64 (o_amount E r)) (ins ++ outs) ->
  Z.of_nat (length ins + length outs) < 2 ^ 62 ->
  gen_xfr_body E O sc pr pa pm ins outs = Ok b ->
  x_in E O b = map (o_bar E) ins /\ x_out E O b = map (o_bar E) outs /\
  conserved (map open_view ins) (map open_view outs) /\
  let l := ins ++ outs in
  match x_proof E O b with
  | NoProof _ _ => ~ some_hides_amount E l /\ ~ some_hides_type E l
  | ConfAmount _ _ _ => ~ several_types E l /\ some_hides_amount E l /\ ~ some_hides_type E l
  | ConfAsset _ _ _ => ~ several_types E l /\ ~ some_hides_amount E l /\ some_hides_type E l
  | ConfAll _ _ _ _ => ~ several_types E l /\ some_hides_amount E l /\ some_hides_type E l
  | AssetMix _ _ _ => several_types E l /\ (some_hides_amount E l \/ some_hides_type E l)
  end.
Proof.
  intros Hu Hl H. unfold gen_xfr_body in H. destruct ins as [|i0 ins]; [discriminate|].
  apply bind_ok in H. destruct H as [k [Hk H]].
  apply bind_ok in H. destruct H as [[] [Hc H]].
  apply bind_ok in H. destruct H as [p [Hp H]]. injection H as <-. cbn [x_in x_out x_proof].
  split; [reflexivity|]. split; [reflexivity|].
  split; [now apply check_asset_amount_iff in Hc|].
  apply kind_lemma in Hk. cbv zeta in *. destruct k.
  - injection Hp as <-. tauto.
  - apply rmap_ok in Hp. destruct Hp as [? [_ <-]]. tauto.
  - apply rmap_ok in Hp. destruct Hp as [? [_ <-]]. tauto.
  - apply bind_ok in Hp. destruct Hp as [? [_ Hp]]. apply bind_ok in Hp. destruct Hp as [? [_ Hp]].
    injection Hp as <-. tauto.
  - apply rmap_ok in Hp. destruct Hp as [? [_ <-]]. tauto.
  - injection Hp as <-. tauto.
Qed.
End Kinds2.

