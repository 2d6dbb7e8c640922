(** Soundness, completeness and forgeability of the asset-mixing circuit, and the
    builder's balance check. *)
From Coq Require Import List NArith ZArith Bool Lia ZifyBool ZifyNat ZifyN Field.
From Verif Require Import Base Field PField TurboModel TurboSpec TurboProofs TurboHonest TurboKit
  XfrModel XfrSpec MixModel MixSpec.
Import ListNotations.
Ltac Zify.zify_post_hook ::= Z.div_mod_to_equations.

(** ** The builder's check *)
Section Check.
Local Open Scope Z_scope.

(** The balance recorded for a type, if any. *)
Fixpoint lookup (m : balances) (t : N) : option Z :=
  match m with [] => None | (t', s) :: m' => if N.eqb t' t then Some s else lookup m' t end.
Definition bal (m : balances) (t : N) : Z := match lookup m t with Some s => s | None => 0 end.

Lemma i128_add_ok a b s : i128_add a b = Ok s -> s = a + b.
Proof. unfold i128_add. destruct (_ && _)%bool; [|discriminate]. intros H. now apply Ok_inj in H. Qed.

Lemma bump_lookup m t v m' : bump m t v = Ok m' -> forall t',
  lookup m' t' = if N.eqb t t' then Some (bal m t + v) else lookup m t'.
Proof.
  revert m'; induction m as [|[t1 s] m IH]; intros m' H t'; cbn [bump] in H.
  - apply Ok_inj in H. subst m'. cbn. destruct (N.eqb_spec t t'); reflexivity.
  - destruct (N.eqb_spec t1 t) as [->|n].
    + apply rmap_ok in H. destruct H as [s' [H <-]]. apply i128_add_ok in H. subst s'.
      cbn [lookup]. unfold bal. cbn [lookup]. rewrite N.eqb_refl.
      destruct (N.eqb_spec t t'); reflexivity.
    + apply rmap_ok in H. destruct H as [m1 [H <-]]. cbn [lookup].
      rewrite (IH _ H t'). unfold bal. cbn [lookup].
      destruct (N.eqb_spec t1 t); [contradiction|].
      destruct (N.eqb_spec t1 t'), (N.eqb_spec t t'); try reflexivity. congruence.
Qed.

Lemma collect_lookup sign l : forall m m', collect_balances sign m l = Ok m' -> forall t,
  bal m' t = bal m t + sign * total t l /\
  (lookup m' t = None <-> lookup m t = None /\ ~ In t (map snd l)).
Proof.
  induction l as [|[a t0] l IH]; intros m m' H t; cbn [collect_balances total map In] in *.
  - apply Ok_inj in H. subst. split; [lia|tauto].
  - apply bind_ok in H. destruct H as [m1 [H1 H2]]. destruct (IH _ _ H2 t) as [E1 E2].
    pose proof (bump_lookup _ _ _ _ H1 t) as L. split.
    + rewrite E1. unfold bal at 1 2. rewrite L. destruct (N.eqb_spec t0 t) as [->|n]; [unfold bal|]; lia.
    + rewrite E2, L. destruct (N.eqb_spec t0 t) as [->|n]; cbn; intuition congruence.
Qed.

Lemma lookup_in m t s : lookup m t = Some s -> In (t, s) m.
Proof.
  induction m as [|[t1 s1] m IH]; cbn; [discriminate|].
  destruct (N.eqb_spec t1 t) as [->|n]; [|auto]. intros H. injection H as ->. now left.
Qed.
(** keys are distinct, so [In] gives back [lookup] *)
Definition distinct (m : balances) := NoDup (map fst m).
Lemma bump_keys m t v m' : bump m t v = Ok m' -> forall k, In k (map fst m') <-> k = t \/ In k (map fst m).
Proof.
  revert m'; induction m as [|[t1 s] m IH]; intros m' H k; cbn [bump] in H.
  - apply Ok_inj in H. subst. cbn. intuition congruence.
  - destruct (N.eqb_spec t1 t) as [->|n]; apply rmap_ok in H; destruct H as [x [H <-]]; cbn.
    + intuition congruence.
    + rewrite (IH _ H). intuition congruence.
Qed.
Lemma bump_distinct m t v m' : bump m t v = Ok m' -> distinct m -> distinct m'.
Proof.
  revert m'; induction m as [|[t1 s] m IH]; intros m' H D; cbn [bump] in H.
  - apply Ok_inj in H. subst. unfold distinct. cbn. constructor; [intros []|constructor].
  - inversion D as [|? ? D1 D2]; subst. destruct (N.eqb_spec t1 t) as [->|n]; apply rmap_ok in H; destruct H as [x [H <-]].
    + exact D.
    + unfold distinct. cbn. constructor; [|now apply (IH x)].
      rewrite (bump_keys _ _ _ _ H). intros [E|E]; [congruence|contradiction].
Qed.
Lemma collect_distinct sign l : forall m m', collect_balances sign m l = Ok m' -> distinct m -> distinct m'.
Proof.
  induction l as [|[a t0] l IH]; intros m m' H D; cbn in H.
  - apply Ok_inj in H. now subst.
  - apply bind_ok in H. destruct H as [m1 [H1 H2]]. eapply IH; [exact H2|]. eapply bump_distinct; eassumption.
Qed.
Lemma in_lookup m t s : distinct m -> In (t, s) m -> lookup m t = Some s.
Proof.
  induction m as [|[t1 s1] m IH]; intros D H; [destruct H|]. inversion D as [|? ? D1 D2]; subst.
  cbn. destruct H as [E|H].
  - injection E as -> ->. now rewrite N.eqb_refl.
  - destruct (N.eqb_spec t1 t) as [->|n]; [|now apply IH].
    exfalso. apply D1. apply in_map_iff. exists (t, s). auto.
Qed.

Lemma check_ok ins outs fee : check_asset_amount ins outs fee = Ok tt ->
  forall t, In t (map snd ins) \/ In t (map snd outs) ->
  total t ins - total t outs = if N.eqb t FEE_TYPE then Z.of_N fee else 0.
Proof.
  unfold check_asset_amount. intros H t Ht.
  apply bind_ok in H. destruct H as [m [H1 H]]. apply bind_ok in H. destruct H as [m' [H2 H]].
  destruct (forallb (balance_ok fee) m') eqn:E; [|discriminate]. clear H.
  destruct (collect_lookup _ _ _ _ H1 t) as [B1 L1]. destruct (collect_lookup _ _ _ _ H2 t) as [B2 L2].
  unfold bal at 2 in B1. cbn [lookup] in B1.
  assert (N : lookup m' t <> None).
  { intros N. apply L2 in N. destruct N as [N1 N2]. apply L1 in N1. tauto. }
  destruct (lookup m' t) as [s|] eqn:Es; [|contradiction]. clear N.
  apply lookup_in in Es as Hin. rewrite forallb_forall in E. specialize (E _ Hin).
  unfold bal in B2 at 1. rewrite Es in B2. unfold balance_ok in E. cbn [fst snd] in E.
  destruct (N.eqb_spec t FEE_TYPE); cbn [negb] in E; apply Z.eqb_eq in E; lia.
Qed.
Lemma total_absent t l : ~ In t (map snd l) -> total t l = 0.
Proof.
  induction l as [|[a t'] l IH]; intros H; [reflexivity|]. cbn in *.
  destruct (N.eqb_spec t' t) as [->|n]; [tauto|]. rewrite IH; tauto.
Qed.

Lemma bump_ok m t v B : (forall k, Z.abs (bal m k) <= B) -> B + Z.abs v < 2 ^ 127 ->
  exists m', bump m t v = Ok m'.
Proof.
  induction m as [|[t1 s] m IH]; intros HB Hv; cbn [bump]; [eauto|].
  destruct (N.eqb_spec t1 t) as [->|n].
  - assert (Hs : Z.abs s <= B). { specialize (HB t). unfold bal in HB. cbn in HB. now rewrite N.eqb_refl in HB. }
    assert (E : i128_add s v = Ok (s + v)).
    { unfold i128_add. destruct (Z.leb_spec (- 2 ^ 127) (s + v)), (Z.ltb_spec (s + v) (2 ^ 127)); try reflexivity; exfalso; lia. }
    rewrite E. cbn. eauto.
  - assert (X : exists m', bump m t v = Ok m' \/ True) by (exists []; now right). clear X.
    (* the bound for the tail: types equal to [t1] cannot matter, so reprove it *)
    assert (G : forall m0, (forall s0, lookup m0 t = Some s0 -> Z.abs s0 <= B) -> exists m', bump m0 t v = Ok m').
    { clear -Hv. induction m0 as [|[t2 s2] m0 IH0]; intros HB; cbn [bump]; [eauto|].
      cbn [lookup] in HB. destruct (N.eqb_spec t2 t) as [->|n].
      - assert (Hs : Z.abs s2 <= B) by (now apply HB).
        assert (E : i128_add s2 v = Ok (s2 + v)).
        { unfold i128_add. destruct (Z.leb_spec (- 2 ^ 127) (s2 + v)), (Z.ltb_spec (s2 + v) (2 ^ 127)); try reflexivity; exfalso; lia. }
        rewrite E. cbn. eauto.
      - destruct (IH0 HB) as [m' ->]. cbn. eauto. }
    destruct (G m) as [m' ->]; [|cbn; eauto].
    intros s0 Hs0. specialize (HB t). unfold bal in HB. cbn in HB.
    destruct (N.eqb_spec t1 t); [contradiction|]. now rewrite Hs0 in HB.
Qed.
Lemma total_bound t l : Forall (fun r => is_u64 (fst r)) l -> 0 <= total t l <= Z.of_nat (length l) * 2 ^ 64.
Proof.
  induction 1 as [|[a t'] l H _ IH]; cbn [total length fst] in *; [lia|].
  unfold is_u64 in H. destruct (N.eqb t' t); lia.
Qed.
Lemma collect_ok sign l : Z.abs sign = 1 -> Forall (fun r => is_u64 (fst r)) l -> forall m B,
  (forall k, Z.abs (bal m k) <= B) -> B + Z.of_nat (length l) * 2 ^ 64 < 2 ^ 127 ->
  exists m', collect_balances sign m l = Ok m'.
Proof.
  intros Hs. induction 1 as [|[a t] l H HF IH]; intros m B HB HL; cbn [collect_balances length] in *; [eauto|].
  cbn [fst] in H. unfold is_u64 in H.
  assert (Ha : Z.abs (sign * Z.of_N a) < 2 ^ 64) by (rewrite Z.abs_mul, Hs; lia).
  destruct (bump_ok m t (sign * Z.of_N a) B HB ltac:(lia)) as [m1 E]. rewrite E. cbn [bind].
  apply (IH m1 (B + 2 ^ 64)); [|lia].
  intros k. pose proof (bump_lookup _ _ _ _ E k) as L. unfold bal at 1. rewrite L.
  destruct (N.eqb_spec t k) as [->|n]; [specialize (HB k); lia|].
  fold (bal m k). specialize (HB k). lia.
Qed.
Lemma check_complete ins outs fee :
  Forall (fun r => is_u64 (fst r)) ins -> Forall (fun r => is_u64 (fst r)) outs ->
  Z.of_nat (length ins + length outs) < 2 ^ 62 ->
  balanced FEE_TYPE ins outs fee -> check_asset_amount ins outs fee = Ok tt.
Proof.
  intros H1 H2 HL HB. unfold check_asset_amount.
  destruct (collect_ok 1 ins eq_refl H1 [] 0) as [m E1]; [intros k; cbn; lia|lia|].
  rewrite E1. cbn [bind].
  destruct (collect_ok (-1) outs eq_refl H2 m (Z.of_nat (length ins) * 2 ^ 64)) as [m' E2]; [|lia|].
  { intros k. destruct (collect_lookup _ _ _ _ E1 k) as [B1 _]. rewrite B1. change (bal [] k) with 0.
    pose proof (total_bound k _ H1). lia. }
  rewrite E2. cbn [bind].
  assert (D : distinct m') by (eapply collect_distinct; [exact E2|]; eapply collect_distinct; [exact E1|]; constructor).
  assert (G : forallb (balance_ok fee) m' = true); [|now rewrite G].
  apply forallb_forall. intros [t s] Hin. apply (in_lookup _ _ _ D) in Hin.
  destruct (collect_lookup _ _ _ _ E1 t) as [B1 _]. destruct (collect_lookup _ _ _ _ E2 t) as [B2 _].
  unfold bal at 1 in B2. rewrite Hin in B2. change (bal [] t) with 0 in B1.
  specialize (HB t). unfold balance_ok. cbn [fst snd].
  destruct (N.eqb_spec t FEE_TYPE); cbn [negb]; apply Z.eqb_eq; lia.
Qed.
End Check.

Local Open Scope F_scope.
Section Circuit.
Context (F : PField).
Add Field Fmix : (f_th F).
Implicit Types (c : tcs F) (w : nat -> F).

(** ** Soundness *)
Definition ind (b : bool) : F := if b then 1 else 0.

Lemma is_equal_decided t1 t2 :
  sound (is_equal F t1 t2) (fun w e => conv w -> w e = if f_dec (w t1) (w t2) then 1 else 0).
Proof.
  unfold is_equal. eapply sb; [apply is_equal_or_not_decided|]. intros p. apply sr.
  intros w H C. exact (proj1 (H C)).
Qed.
Lemma match_select_sound t1 t2 v :
  sound (match_select F t1 t2 v) (fun w o => conv w -> w o = if f_dec (w t1) (w t2) then w v else 0).
Proof.
  unfold match_select. eapply sb; [apply is_equal_decided|].
  intros e. eapply sw; [apply mul_sound|]. intros w o Ho H C. rewrite Ho, (H C).
  destruct (f_dec (w t1) (w t2)); ring.
Qed.

Lemma sum_matching_sound t l : forall s,
  sound (sum_matching F t l s) (fun w o => conv w -> w o = w s + fsum_of (w t) (vals w l)).
Proof.
  induction l as [|[t' v] l IH]; intros s; cbn [sum_matching vals map fsum_of fst snd].
  - apply sr. intros w _. ring.
  - eapply sb; [apply match_select_sound|]. intros a.
    eapply sb; [apply add_sound|]. intros s'. eapply sw; [apply IH|].
    intros w o Ho Hs Ha C. rewrite (Ho C), Hs, (Ha C). fold (vals w l). ring.
Qed.

Lemma type_sums_sound all : forall todo,
  sound (type_sums F todo all) (fun w r => conv w ->
    Forall2 (fun rec ts => fst ts = fst rec /\ w (snd ts) = fsum_of (w (fst rec)) (vals w all)) todo r).
Proof.
  induction todo as [|[t v] todo IH]; cbn [type_sums].
  - apply sr. intros w _. constructor.
  - eapply sb; [apply sum_matching_sound|]. intros s. eapply sb; [apply IH|]. intros r.
    apply sr. intros w Hr Hs C. constructor; [|auto]. cbn [fst snd]. split; [reflexivity|].
    rewrite (Hs C). destruct C as [C0 _]. unfold zero_var. rewrite C0. ring.
Qed.

Lemma dec_cases (x y : F) : (if f_dec x y then 1 else 0 : F) = 1 \/ (if f_dec x y then 1 else 0 : F) = 0.
Proof. destruct (f_dec x y); auto. Qed.

Lemma match_outputs_sound it isum is_fee not_fee fee outs : forall flag,
  sound (match_outputs F it isum is_fee not_fee fee flag outs) (fun w o => conv w ->
    (w o = 0 -> w flag = 0 \/ has_type (w it) (vals w outs)) /\
    Forall (fun r => w (fst r) = w it ->
       (w not_fee = 1 -> w isum = w (snd r)) /\ (w is_fee = 1 -> w isum = w (snd r) + w fee)) outs).
Proof.
  induction outs as [|[ot osum] outs IH]; intros flag; cbn [match_outputs].
  - apply sr. intros w _. split; [|constructor]. auto.
  - eapply sb; [apply is_equal_or_not_decided|]. intros p.
    eapply sb; [apply mul_sound|]. intros flag'.
    eapply sb; [apply sub_sound|]. intros diff.
    eapply sb; [apply mul_sound|]. intros a.
    eapply sb; [apply mul_gate_sound|]. intros u1.
    eapply sb; [apply mul_sound|]. intros b.
    eapply sb; [apply sub_sound|]. intros dmf.
    eapply sb; [apply mul_gate_sound|]. intros u2.
    eapply sw; [apply IH|]. intros w o Ho H8 H7 H6 H5 H4 H3 H2 H1 C.
    destruct (H1 C) as [E1 E2]. destruct (Ho C) as [K1 K2]. pose proof (proj1 C) as C0. unfold zero_var in *.
    split.
    + intros Z. destruct (K1 Z) as [Z1|Z1].
      * rewrite H2, E2 in Z1. unfold has_type. cbn [vals map In fst].
        destruct (f_dec (w it) (w ot)) as [e|n]; [right; left; now symmetry|].
        left. rewrite <- Z1. ring.
      * right. right. exact Z1.
    + constructor; [|exact K2]. cbn [fst snd]. intros e.
      destruct (f_dec (w it) (w ot)) as [_|n]; [|congruence].
      rewrite C0, H4, E1, H3 in H5. rewrite C0, H6, H7, E1, H3 in H8. split; intros Hf; rewrite Hf in *.
      * apply (proj1 (fsub_0 F _ _)). rewrite H5. ring.
      * apply (proj1 (fsub_0 F _ _)). rewrite H8. ring.
Qed.

Lemma per_input_sound outs ftv fee : forall ins flag,
  sound (per_input F ins outs ftv fee flag) (fun w o => conv w ->
    (w o = 0 -> w flag = 0 \/ has_type (w ftv) (vals w ins)) /\
    Forall (fun i =>
      (w (fst i) <> w ftv -> has_type (w (fst i)) (vals w outs) /\
         Forall (fun r => w (fst r) = w (fst i) -> w (snd i) = w (snd r)) outs) /\
      (w (fst i) = w ftv ->
         (has_type (w (fst i)) (vals w outs) \/ w (snd i) = w fee) /\
         Forall (fun r => w (fst r) = w (fst i) -> w (snd i) = w (snd r) + w fee) outs)) ins).
Proof.
  induction ins as [|[it isum] ins IH]; intros flag; cbn [per_input].
  - apply sr. intros w _. split; [|constructor]. auto.
  - eapply sb; [apply is_equal_or_not_decided|]. intros p.
    eapply sb; [apply mul_sound|]. intros flag'.
    eapply sb; [apply match_outputs_sound|]. intros nomatch.
    eapply sb; [apply mul_gate_sound|]. intros u1.
    eapply sb; [apply sub_sound|]. intros imf.
    eapply sb; [apply mul_sound|]. intros cond.
    eapply sb; [apply mul_gate_sound|]. intros u2.
    eapply sw; [apply IH|]. intros w o Ho H7 H6 H5 H4 H3 H2 H1 C.
    destruct (H1 C) as [E1 E2]. destruct (Ho C) as [K1 K2]. destruct (H3 C) as [M1 M2].
    destruct C as [C0 C1]. unfold zero_var, one_var in *.
    assert (N1 : w nomatch = 0 -> has_type (w it) (vals w outs)).
    { intros Z. destruct (M1 Z) as [Z1|Z1]; [|exact Z1]. exfalso. rewrite C1 in Z1. exact (f1_neq_0 F Z1). }
    split.
    + intros Z. destruct (K1 Z) as [Z1|Z1].
      * rewrite H2, E2 in Z1. unfold has_type. cbn [vals map In fst].
        destruct (f_dec (w it) (w ftv)) as [e|n]; [right; now left|].
        left. rewrite <- Z1. ring.
      * right. right. exact Z1.
    + constructor; [|exact K2]. cbn [fst snd]. rewrite C0 in *.
      destruct (f_dec (w it) (w ftv)) as [e|n]; (split; [intros n'; try contradiction|intros e'; try contradiction]).
      * split.
        -- rewrite H6, H5, E1 in H7.
           assert (Z : w nomatch * (w isum - w fee) = 0).
           { transitivity (1 * w nomatch * (w isum - w fee)); [ring|]. now symmetry. }
           apply fmul_0 in Z. destruct Z as [Z|Z]; [left; auto|right]. now apply (proj1 (fsub_0 F _ _)).
        -- eapply Forall_impl; [|exact M2]. intros r Hr Et. now apply (proj2 (Hr Et)).
      * split.
        -- apply N1. rewrite E2 in H4. rewrite H4. ring.
        -- eapply Forall_impl; [|exact M2]. intros r Hr Et. now apply (proj1 (Hr Et)).
Qed.

Lemma type_product_sound ot : forall ins product,
  sound (type_product F ins ot product) (fun w o => w o = 0 -> w product = 0 \/ has_type (w ot) (vals w ins)).
Proof.
  induction ins as [|[it v] ins IH]; intros product; cbn [type_product].
  - apply sr. intros w. auto.
  - eapply sb; [apply sub_sound|]. intros d. eapply sb; [apply mul_sound|]. intros p.
    eapply sw; [apply IH|]. intros w o Ho Hp Hd Z. destruct (Ho Z) as [Z1|Z1]; [|right; right; exact Z1].
    rewrite Hp in Z1. apply fmul_0 in Z1. destruct Z1 as [Z1|Z1]; [now left|]. right. left.
    cbn. rewrite Hd in Z1. now apply (proj1 (fsub_0 F _ _)).
Qed.
Lemma outputs_covered_sound ins : forall outs,
  sound (outputs_covered F outs ins) (fun w _ => conv w -> forall t, has_type t (vals w outs) -> has_type t (vals w ins)).
Proof.
  induction outs as [|[ot v] outs IH]; cbn [outputs_covered].
  - apply sr. intros w _ t [].
  - eapply sb; [apply type_product_sound|]. intros p. eapply sb; [apply const_gate_sound|]. intros u.
    eapply sw; [apply IH|]. intros w o Ho Hz Hp C t [Ht|Ht]; [|now apply (Ho C)].
    cbn in Ht. subst t. destruct (Hp Hz) as [Z|Z]; [|exact Z].
    exfalso. destruct C as [_ C1]. unfold one_var in Z. rewrite C1 in Z. exact (f1_neq_0 F Z).
Qed.

Lemma fsum_absent t (l : list (F * F)) : ~ has_type t l -> fsum_of t l = 0.
Proof.
  induction l as [|[t' v] l IH]; intros H; [reflexivity|]. cbn [fsum_of]. unfold has_type in *. cbn in H.
  destruct (f_dec t t') as [->|n]; [tauto|]. rewrite IH by tauto. ring.
Qed.
Lemma ftotal_absent t (l : list (F * F)) : ~ has_type t l -> ftotal t l = 0%Z.
Proof.
  induction l as [|[t' v] l IH]; intros H; [reflexivity|]. cbn [ftotal]. unfold has_type in *. cbn in H.
  destruct (f_dec t t') as [->|n]; [tauto|]. rewrite IH by tauto. reflexivity.
Qed.
Lemma fsum_ftotal t (l : list (F * F)) : fsum_of t l = fofZ (ftotal t l).
Proof.
  induction l as [|[t' v] l IH]; [reflexivity|]. cbn [fsum_of ftotal]. rewrite fofZ_add, IH.
  destruct (f_dec t t'); [now rewrite fofZ_toZ|reflexivity].
Qed.
Lemma ftotal_bound t (l : list (F * F)) : Forall (fun r => (toZ (snd r) < 2 ^ 64)%Z) l ->
  (0 <= ftotal t l <= Z.of_nat (length l) * (2 ^ 64 - 1))%Z.
Proof.
  induction 1 as [|[t' v] l H _ IH]; cbn [ftotal length snd] in *; [lia|].
  pose proof (toZ_range F v). destruct (f_dec t t'); lia.
Qed.

(** The types occurring in the sums are those of the records. *)
Lemma sums_types w l r :
  Forall2 (fun rec ts => fst ts = fst rec /\ w (snd ts) = fsum_of (w (fst rec)) (vals w l)) l r ->
  forall t, has_type t (vals w r) <-> has_type t (vals w l).
Proof.
  intros H t. unfold has_type.
  assert (E : map fst (vals w r) = map fst (vals w l)).
  { revert H. generalize (vals w l) at 1. intros v H. unfold vals. rewrite !map_map. cbn [fst].
    induction H as [|a b la lb [E _] _ IH]; [reflexivity|]. cbn. rewrite E, IH. reflexivity. }
  now rewrite E.
Qed.
Lemma has_type_in w t l : has_type t (vals (F := F) w l) <-> exists r, In r l /\ w (fst r) = t.
Proof.
  unfold has_type, vals. rewrite map_map. cbn [fst]. rewrite in_map_iff. firstorder.
Qed.

Theorem asset_mixing_sound ins outs fee_type fee :
  sound (asset_mixing F ins outs fee_type fee) (fun w _ => conv w ->
    (forall t, t <> fee_type -> fsum_of t (vals w ins) = fsum_of t (vals w outs)) /\
    fsum_of fee_type (vals w ins) = fsum_of fee_type (vals w outs) + w fee /\
    has_type fee_type (vals w ins) /\
    (forall t, has_type t (vals w outs) -> has_type t (vals w ins)) /\
    (forall t, t <> fee_type -> has_type t (vals w ins) -> has_type t (vals w outs))).
Proof.
  unfold asset_mixing.
  eapply sb; [apply type_sums_sound|]. intros isums.
  eapply sb; [apply type_sums_sound|]. intros osums.
  eapply sb; [apply sound_new|]. intros ftv.
  eapply sb; [apply const_gate_sound|]. intros u1.
  eapply sb; [apply per_input_sound|]. intros flag.
  eapply sb; [apply const_gate_sound|]. intros u2.
  eapply sw; [apply outputs_covered_sound|].
  intros w u3 Hcov Hflag Hper Hftv _ Hos His C.
  specialize (Hcov C). specialize (Hos C). specialize (His C). destruct (Hper C) as [P1 P2]. clear Hper.
  pose proof (sums_types _ _ _ His) as Ti. pose proof (sums_types _ _ _ Hos) as To.
  rewrite Hftv in *.
  assert (Hfee : has_type fee_type (vals w ins)).
  { destruct (P1 Hflag) as [Z|Z]; [|now apply Ti]. exfalso. destruct C as [_ C1]. unfold one_var in Z.
    rewrite C1 in Z. exact (f1_neq_0 F Z). }
  assert (In' : forall t, has_type t (vals w ins) -> exists i, In i isums /\ w (fst i) = t /\ w (snd i) = fsum_of t (vals w ins)).
  { intros t Ht. apply Ti, has_type_in in Ht. destruct Ht as [i [Hi <-]]. exists i. split; [exact Hi|].
    destruct (Forall2_in_r _ _ _ _ His Hi) as [rec [_ [E1 E2]]]. split; [reflexivity|]. now rewrite E2, E1. }
  assert (Out' : forall t, has_type t (vals w outs) -> exists o, In o osums /\ w (fst o) = t /\ w (snd o) = fsum_of t (vals w outs)).
  { intros t Ht. apply To, has_type_in in Ht. destruct Ht as [i [Hi <-]]. exists i. split; [exact Hi|].
    destruct (Forall2_in_r _ _ _ _ Hos Hi) as [rec [_ [E1 E2]]]. split; [reflexivity|]. now rewrite E2, E1. }
  rewrite Forall_forall in P2.
  assert (Cov2 : forall t, t <> fee_type -> has_type t (vals w ins) -> has_type t (vals w outs)).
  { intros t Hn Ht. destruct (In' t Ht) as [i [Hi [Ei _]]]. apply To.
    destruct (P2 i Hi) as [P3 _]. rewrite Ei in P3. now apply P3. }
  split; [|split; [|split; [exact Hfee|split; [exact Hcov|exact Cov2]]]].
  - intros t Hn. destruct (in_dec (f_dec (f := F)) t (map fst (vals w ins))) as [Hin|Hout].
    + destruct (In' t Hin) as [i [Hi [Ei Es]]]. destruct (Out' t (Cov2 t Hn Hin)) as [o [Ho [Eo Eos]]].
      destruct (P2 i Hi) as [P3 _]. rewrite Ei in P3. destruct (P3 Hn) as [_ P4].
      rewrite Forall_forall in P4. rewrite <- Es, <- Eos. apply P4; assumption.
    + rewrite (fsum_absent t (vals w ins) Hout). symmetry. apply fsum_absent. intros H. apply Hout. now apply Hcov.
  - destruct (In' _ Hfee) as [i [Hi [Ei Es]]]. destruct (P2 i Hi) as [_ P3]. rewrite Ei in P3.
    destruct (P3 eq_refl) as [P4 P5].
    destruct (in_dec (f_dec (f := F)) fee_type (map fst (vals w outs))) as [Hin|Hout].
    + destruct (Out' _ Hin) as [o [Ho [Eo Eos]]]. rewrite Forall_forall in P5. rewrite <- Es, <- Eos. now apply P5.
    + rewrite (fsum_absent fee_type (vals w outs) Hout). destruct P4 as [P4|P4].
      * exfalso. apply Hout. now apply To.
      * rewrite <- Es, P4. ring.
Qed.

(** No wrap-around: the field sums are the integer sums. *)
Lemma no_wrap (x y : Z) : (0 <= x < pchar F)%Z -> (0 <= y < pchar F)%Z -> fofZ x = (fofZ y : F) -> x = y.
Proof.
  intros Hx Hy H. apply (f_equal toZ) in H. rewrite !toZ_fofZ in H.
  rewrite !Z.mod_small in H by assumption. exact H.
Qed.

(** ** Forgery *)
Lemma adv_match_select c w t1 t2 v x y z : wf F c -> sat c w -> hasw F c w 0 0 -> hasw F c w 1 0 ->
  hasw F c w t1 x -> hasw F c w t2 y -> hasw F c w v z ->
  adv F (match_select F t1 t2 v) c w (fun o c' w' => hasw F c' w' o 0).
Proof.
  intros W S Z O H1 H2 H3. unfold match_select, is_equal.
  apply (ab F _ _ _ _ (fun e c' w' => hasw F c' w' e 0)).
  { eapply ab; [apply (adv_neither F c w t1 t2 x y); assumption|]. intros p c' w' A N W' S' [P _].
    apply ar; [assumption..|]. exact P. }
  intros e c' w' A N W' S' He.
  eapply aw; [apply (adv_mul F c' w' e v 0 z); try assumption; eapply hasw_mono; eassumption|].
  intros o c2 w2 _ _ Ho. replace (0 : F) with (0 * z : F) by ring. exact Ho.
Qed.
Definition known c w (l : list (nat * nat)) : Prop :=
  Forall (fun r => (fst r < nvars c)%nat /\ (snd r < nvars c)%nat) l.
Lemma known_mono c c' w w' l : (nvars c <= nvars c')%nat -> known c w l -> known c' w' l.
Proof. intros H. apply Forall_impl. intros r. lia. Qed.
Lemma self_has c w i : (i < nvars c)%nat -> hasw F c w i (w i).
Proof. intros H. split; [exact H|reflexivity]. Qed.

Ltac carry A N := cbn beta in *; repeat match goal with
  | H : hasw F ?c ?w _ _ |- _ => match type of A with agree F (nvars c) w ?w' =>
       match type of N with (_ <= nvars ?c')%nat =>
         apply (hasw_mono F c c' w w' _ _ A N) in H end end
  | H : known ?c ?w _ |- _ => match type of A with agree F (nvars c) w ?w' =>
       match type of N with (_ <= nvars ?c')%nat =>
         apply (known_mono c c' w w' _ N) in H end end
  end.

Lemma adv_sum_matching t l : forall c w s x, wf F c -> sat c w -> hasw F c w 0 0 -> hasw F c w 1 0 ->
  hasw F c w t x -> known c w l -> hasw F c w s 0 ->
  adv F (sum_matching F t l s) c w (fun o c' w' => hasw F c' w' o 0).
Proof.
  induction l as [|[t' v] l IH]; intros c w s x W S Z O Ht K Hs; cbn [sum_matching].
  - apply ar; assumption.
  - inversion K as [|? ? [K1 K2] K3]; subst. cbn [fst snd] in *. fold (known c w l) in K3.
    eapply ab; [apply (adv_match_select c w t t' v x (w t') (w v)); auto using self_has|].
    intros a c1 w1 A1 N1 W1 S1 Ha. carry A1 N1.
    eapply ab; [apply (adv_add F c1 w1 s a 0 0); assumption|].
    intros s' c2 w2 A2 N2 W2 S2 Hs'. carry A2 N2. replace (0 + 0 : F) with (0 : F) in Hs' by ring.
    apply (IH c2 w2 s' x); assumption.
Qed.
Definition zero_sums c w (todo r : list (nat * nat)) : Prop :=
  Forall2 (fun rec ts => fst ts = fst rec /\ (snd ts < nvars c)%nat /\ w (snd ts) = 0) todo r.
Lemma zero_sums_mono c c' w w' todo r : agree F (nvars c) w w' -> (nvars c <= nvars c')%nat ->
  zero_sums c w todo r -> zero_sums c' w' todo r.
Proof.
  intros A N. apply Forall2_impl. intros a b [H1 [H2 H3]]. split; [exact H1|]. split; [lia|]. now rewrite A.
Qed.
Lemma adv_type_sums all : forall todo c w, wf F c -> sat c w -> hasw F c w 0 0 -> hasw F c w 1 0 ->
  known c w all -> known c w todo ->
  adv F (type_sums F todo all) c w (fun r c' w' => zero_sums c' w' todo r).
Proof.
  induction todo as [|[t v] todo IH]; intros c w W S Z O K Kt; cbn [type_sums].
  - apply ar; try assumption. constructor.
  - inversion Kt as [|? ? [K1 K2] K3]; subst. cbn [fst snd] in *. fold (known c w todo) in K3.
    eapply ab; [apply (adv_sum_matching t all c w zero_var (w t)); auto using self_has|].
    intros s c1 w1 A1 N1 W1 S1 Hs. carry A1 N1.
    eapply ab; [apply (IH c1 w1); assumption|]. intros r c2 w2 A2 N2 W2 S2 Hr. carry A2 N2.
    apply ar; try assumption. constructor; [|exact Hr]. cbn [fst snd]. split; [reflexivity|exact Hs].
Qed.
Lemma adv_match_outputs it isum is_fee not_fee fee outs : forall c w flag x f,
  wf F c -> sat c w -> hasw F c w 0 0 -> hasw F c w 1 0 -> hasw F c w it x -> hasw F c w isum 0 ->
  hasw F c w is_fee 0 -> hasw F c w not_fee 0 -> hasw F c w fee f -> known c w outs -> hasw F c w flag 0 ->
  adv F (match_outputs F it isum is_fee not_fee fee flag outs) c w (fun o c' w' => hasw F c' w' o 0).
Proof.
  induction outs as [|[ot osum] outs IH]; intros c w flag x f W S Z O Hit His Hf Hnf Hfee K Hflag; cbn [match_outputs].
  - apply ar; assumption.
  - inversion K as [|? ? [K1 K2] K3]; subst. cbn [fst snd] in *. fold (known c w outs) in K3.
    pose proof (self_has c w ot K1) as Hot. pose proof (self_has c w osum K2) as Hos.
    set (xo := w ot) in *. set (xs := w osum) in *. clearbody xo xs. clear K.
    eapply ab; [apply (adv_neither F c w it ot x xo); assumption|].
    intros p c1 w1 A1 N1 W1 S1 [Hp1 Hp2]. carry A1 N1.
    eapply ab; [apply (adv_mul F c1 w1 flag (snd p) 0 0); assumption|].
    intros flag' c2 w2 A2 N2 W2 S2 Hfl'. carry A2 N2.
    eapply ab; [apply (adv_sub F c2 w2 isum osum 0 xs); assumption|].
    intros diff c3 w3 A3 N3 W3 S3 Hd. carry A3 N3.
    eapply ab; [apply (adv_mul F c3 w3 (fst p) not_fee 0 0); assumption|].
    intros a c4 w4 A4 N4 W4 S4 Ha. carry A4 N4.
    eapply ab; [apply (adv_mul_gate F c4 w4 a diff zero_var (0 * 0) (0 - xs) 0); try assumption; [apply Z|ring]|].
    intros u1 c5 w5 A5 N5 W5 S5 _. carry A5 N5.
    eapply ab; [apply (adv_mul F c5 w5 (fst p) is_fee 0 0); assumption|].
    intros b c6 w6 A6 N6 W6 S6 Hb. carry A6 N6.
    eapply ab; [apply (adv_sub F c6 w6 diff fee (0 - xs) f); assumption|].
    intros dmf c7 w7 A7 N7 W7 S7 Hdmf. carry A7 N7.
    eapply ab; [apply (adv_mul_gate F c7 w7 b dmf zero_var (0 * 0) (0 - xs - f) 0); try assumption; [apply Z|ring]|].
    intros u2 c8 w8 A8 N8 W8 S8 _. carry A8 N8.
    replace (0 * 0 : F) with (0 : F) in * by ring.
    apply (IH c8 w8 flag' x f); assumption.
Qed.
Definition zsums c w (l : list (nat * nat)) : Prop :=
  Forall (fun r => (fst r < nvars c)%nat /\ (snd r < nvars c)%nat /\ w (snd r) = 0) l.
Lemma zsums_mono c c' w w' l : agree F (nvars c) w w' -> (nvars c <= nvars c')%nat -> zsums c w l -> zsums c' w' l.
Proof. intros A N. apply Forall_impl. intros r [H1 [H2 H3]]. rewrite A by exact H2. split; [lia|]. split; [lia|exact H3]. Qed.
Lemma adv_per_input outs ftv fee : forall ins c w flag x f,
  wf F c -> sat c w -> hasw F c w 0 0 -> hasw F c w 1 0 -> zsums c w ins -> known c w outs ->
  hasw F c w ftv x -> hasw F c w fee f -> hasw F c w flag 0 ->
  adv F (per_input F ins outs ftv fee flag) c w (fun o c' w' => hasw F c' w' o 0).
Proof.
  induction ins as [|[it isum] ins IH]; intros c w flag x f W S Z O Ki Ko Hftv Hfee Hflag; cbn [per_input].
  - apply ar; assumption.
  - inversion Ki as [|? ? [K1 [K2 K4]] K3]; subst. cbn [fst snd] in *. fold (zsums c w ins) in K3.
    pose proof (self_has c w it K1) as Hit. assert (His : hasw F c w isum 0) by (split; assumption).
    set (xi := w it) in *. clearbody xi. clear Ki K4.
    eapply ab; [apply (adv_neither F c w it ftv xi x); assumption|].
    intros p c1 w1 A1 N1 W1 S1 [Hp1 Hp2]. carry A1 N1. apply (zsums_mono c c1 w w1 _ A1 N1) in K3.
    eapply ab; [apply (adv_mul F c1 w1 flag (snd p) 0 0); assumption|].
    intros flag' c2 w2 A2 N2 W2 S2 Hfl'. carry A2 N2. apply (zsums_mono c1 c2 w1 w2 _ A2 N2) in K3.
    eapply ab; [apply (adv_match_outputs it isum (fst p) (snd p) fee outs c2 w2 one_var xi f); assumption|].
    intros nm c3 w3 A3 N3 W3 S3 Hn. carry A3 N3. apply (zsums_mono c2 c3 w2 w3 _ A3 N3) in K3.
    eapply ab; [apply (adv_mul_gate F c3 w3 (snd p) nm zero_var 0 0 0); try assumption; [apply Z|ring]|].
    intros u1 c4 w4 A4 N4 W4 S4 _. carry A4 N4. apply (zsums_mono c3 c4 w3 w4 _ A4 N4) in K3.
    eapply ab; [apply (adv_sub F c4 w4 isum fee 0 f); assumption|].
    intros imf c5 w5 A5 N5 W5 S5 Him. carry A5 N5. apply (zsums_mono c4 c5 w4 w5 _ A5 N5) in K3.
    eapply ab; [apply (adv_mul F c5 w5 (fst p) nm 0 0); assumption|].
    intros cd c6 w6 A6 N6 W6 S6 Hcd. carry A6 N6. apply (zsums_mono c5 c6 w5 w6 _ A6 N6) in K3.
    eapply ab; [apply (adv_mul_gate F c6 w6 cd imf zero_var (0 * 0) (0 - f) 0); try assumption; [apply Z|ring]|].
    intros u2 c7 w7 A7 N7 W7 S7 _. carry A7 N7. apply (zsums_mono c6 c7 w6 w7 _ A7 N7) in K3.
    replace (0 * 0 : F) with (0 : F) in * by ring.
    apply (IH c7 w7 flag' x f); assumption.
Qed.
Lemma adv_type_product ot : forall ins c w product x,
  wf F c -> sat c w -> hasw F c w 0 0 -> known c w ins -> hasw F c w ot x -> hasw F c w product 0 ->
  adv F (type_product F ins ot product) c w (fun o c' w' => hasw F c' w' o 0).
Proof.
  induction ins as [|[it v] ins IH]; intros c w product x W S Z K Ho Hp; cbn [type_product].
  - apply ar; assumption.
  - inversion K as [|? ? [K1 K2] K3]; subst. cbn [fst snd] in *. fold (known c w ins) in K3.
    pose proof (self_has c w it K1) as Hi. set (xi := w it) in *. clearbody xi. clear K.
    eapply ab; [apply (adv_sub F c w it ot xi x); assumption|].
    intros d c1 w1 A1 N1 W1 S1 Hd. carry A1 N1.
    eapply ab; [apply (adv_mul F c1 w1 product d 0 (xi - x)); assumption|].
    intros p c2 w2 A2 N2 W2 S2 Hp2. carry A2 N2. replace (0 * (xi - x) : F) with (0 : F) in Hp2 by ring.
    apply (IH c2 w2 p x); assumption.
Qed.
Lemma adv_outputs_covered ins : forall outs c w,
  wf F c -> sat c w -> hasw F c w 0 0 -> hasw F c w 1 0 -> known c w ins -> known c w outs ->
  adv F (outputs_covered F outs ins) c w (fun _ _ _ => True).
Proof.
  induction outs as [|[ot v] outs IH]; intros c w W S Z O Ki Ko; cbn [outputs_covered].
  - apply ar; [assumption..|exact I].
  - inversion Ko as [|? ? [K1 K2] K3]; subst. cbn [fst snd] in *. fold (known c w outs) in K3.
    eapply ab; [apply (adv_type_product ot ins c w one_var (w ot)); auto using self_has|].
    intros p c1 w1 A1 N1 W1 S1 Hp. carry A1 N1.
    eapply ab; [apply (adv_const_gate F c1 w1 p 0); assumption|].
    intros u c2 w2 A2 N2 W2 S2 _. carry A2 N2. apply IH; assumption.
Qed.

Theorem asset_mixing_forgeable ins outs fee_type fee c w :
  wf F c -> sat c w -> hasw F c w 0 0 -> hasw F c w 1 0 ->
  known c w ins -> known c w outs -> (fee < nvars c)%nat ->
  adv F (asset_mixing F ins outs fee_type fee) c w (fun _ _ _ => True).
Proof.
  intros W S Z O Ki Ko Hfee. unfold asset_mixing.
  pose proof (self_has c w fee Hfee) as Hf. set (xf := w fee) in *. clearbody xf.
  eapply ab; [apply (adv_type_sums ins ins c w); assumption|].
  intros is c1 w1 A1 N1 W1 S1 His. carry A1 N1.
  eapply ab; [apply (adv_type_sums outs outs c1 w1); assumption|].
  intros os c2 w2 A2 N2 W2 S2 Hos. carry A2 N2. apply (zero_sums_mono _ _ _ _ _ _ A2 N2) in His.
  eapply ab; [apply (adv_new F _ c2 w2 fee_type); assumption|].
  intros ftv c3 w3 A3 N3 W3 S3 Hftv. carry A3 N3. apply (zero_sums_mono _ _ _ _ _ _ A3 N3) in His.
  apply (zero_sums_mono _ _ _ _ _ _ A3 N3) in Hos.
  eapply ab; [apply (adv_const_gate F c3 w3 ftv fee_type); assumption|].
  intros u1 c4 w4 A4 N4 W4 S4 _. carry A4 N4. apply (zero_sums_mono _ _ _ _ _ _ A4 N4) in His.
  apply (zero_sums_mono _ _ _ _ _ _ A4 N4) in Hos.
  assert (G : forall l r, known c4 w4 l -> zero_sums c4 w4 l r -> zsums c4 w4 r).
  { intros l r K H. revert K. induction H as [|a b l r [E1 [E2 E3]] H IH]; intros K; [constructor|].
    inversion K as [|? ? [K1 K2] K3]; subst. constructor; [|now apply IH]. rewrite E1. auto. }
  pose proof (G _ _ Ki His) as Zi. pose proof (G _ _ Ko Hos) as Zo.
  assert (Ko4 : known c4 w4 os). { eapply Forall_impl; [|exact Zo]. intros r [X1 [X2 X3]]. auto. }
  eapply ab; [apply (adv_per_input os ftv fee is c4 w4 one_var fee_type xf); assumption|].
  intros flag c5 w5 A5 N5 W5 S5 Hflag. carry A5 N5.
  eapply ab; [apply (adv_const_gate F c5 w5 flag 0); assumption|].
  intros u2 c6 w6 A6 N6 W6 S6 _. carry A6 N6.
  apply adv_outputs_covered; assumption.
Qed.

(** ** Completeness *)
Definition knownh c (l : list (nat * nat)) (vs : list (F * F)) : Prop :=
  Forall2 (fun r v => has F c (fst r) (fst v) /\ has F c (snd r) (snd v)) l vs.
Lemma knownh_mono c c' l vs : extends c c' -> knownh c l vs -> knownh c' l vs.
Proof. intros E. apply Forall2_impl. intros a b [H1 H2]. split; eapply has_mono; eassumption. Qed.
Ltac lift E := cbn beta in *; repeat match goal with
  | H : has F ?c _ _ |- _ => match type of E with extends c ?c' => apply (has_mono F c c' _ _ E) in H end
  | H : knownh ?c _ _ |- _ => match type of E with extends c ?c' => apply (knownh_mono c c' _ _ E) in H end
  end.

Lemma ha_match_select c t1 t2 v x y z : Inv c -> has F c t1 x -> has F c t2 y -> has F c v z ->
  ha F (match_select F t1 t2 v) c (fun o c' => has F c' o (if f_dec x y then z else 0)).
Proof.
  intros HI H1 H2 H3. unfold match_select, is_equal.
  apply (hb F _ _ _ (fun e c' => has F c' e (if f_dec x y then 1 else 0))).
  { eapply hb; [apply (ha_is_equal_or_not F c t1 t2 x y); assumption|]. intros p c' I' E [P _].
    apply hr; [exact I'|]. exact P. }
  intros e c' I' E He. cbn beta in He. lift E.
  eapply hw; [eapply (ha_mul F c' e v _ z); eassumption|]. intros o c2 _ _ Ho.
  replace (if f_dec x y then z else 0) with ((if f_dec x y then 1 else 0) * z) by (destruct (f_dec x y); ring).
  exact Ho.
Qed.
Lemma ha_sum_matching t x : forall l c s vs a, Inv c -> has F c t x -> knownh c l vs -> has F c s a ->
  ha F (sum_matching F t l s) c (fun o c' => has F c' o (a + fsum_of x vs)).
Proof.
  induction l as [|[t' v] l IH]; intros c s vs a HI Ht K Hs; inversion K as [|? ? ? ? K1 K2]; subst; cbn [sum_matching].
  - apply hr; [exact HI|]. cbn. replace (a + 0) with a by ring. exact Hs.
  - destruct y as [ty vy]. cbn [fst snd fsum_of] in *. destruct K1 as [Kt Kv].
    fold (knownh c l l') in K2. clear K.
    eapply hb; [apply (ha_match_select c t t' v x ty vy); assumption|]. intros ad c1 I1 E1 Ha. lift E1.
    eapply hb; [eapply (ha_add F c1 s ad a _); eassumption|]. intros s' c2 I2 E2 Hs'. lift E2.
    eapply hw; [eapply (IH c2 s' l'); eassumption|]. intros o c3 _ _ Ho.
    replace (a + ((if f_dec x ty then vy else 0) + fsum_of x l')) with (a + (if f_dec x ty then vy else 0) + fsum_of x l') by ring.
    exact Ho.
Qed.
Lemma ha_type_sums all av : forall todo vs c, Inv c -> knownh c all av -> knownh c todo vs ->
  ha F (type_sums F todo all) c (fun r c' => knownh c' r (map (fun tv => (fst tv, fsum_of (fst tv) av)) vs)).
Proof.
  induction todo as [|[t v] todo IH]; intros vs c HI Ka K; inversion K as [|? ? ? ? [K1 K2] K3]; subst; cbn [type_sums].
  - apply hr; [exact HI|]. constructor.
  - destruct y as [ty vy]. cbn [fst snd] in *. fold (knownh c todo l') in K3. clear K.
    eapply hb; [apply (ha_sum_matching t ty all c zero_var av 0); try assumption; now apply has_zero|].
    intros s c1 I1 E1 Hs. lift E1.
    eapply hb; [apply (IH l' c1); assumption|]. intros r c2 I2 E2 Hr. lift E2.
    apply hr; [exact I2|]. constructor; [|exact Hr]. cbn [fst snd]. split; [exact K1|].
    replace (fsum_of ty av) with (0 + fsum_of ty av) by ring. exact Hs.
Qed.

(** Whether a type occurs, as the circuit's flag. *)
Definition absent (t : F) (l : list (F * F)) : F := if in_dec (f_dec (f := F)) t (map fst l) then 0 else 1.
Lemma absent_cons t t' v l : absent t ((t', v) :: l) = (if f_dec t t' then 0 else 1) * absent t l.
Proof.
  unfold absent. cbn [map fst].
  destruct (f_dec t t') as [e|n], (in_dec f_dec t (map fst l)) as [E'|E'],
    (in_dec f_dec t (t' :: map fst l)) as [E|E]; try ring; exfalso; cbn in E; subst; intuition congruence.
Qed.

Lemma ha_match_outputs it isum is_fee not_fee fee xi si (isf : bool) xf : forall outs c flag fl vs,
  Inv c -> has F c it xi -> has F c isum si -> has F c is_fee (ind isf) -> has F c not_fee (ind (negb isf)) ->
  has F c fee xf -> knownh c outs vs -> has F c flag fl ->
  Forall (fun ts => fst ts = xi -> si = snd ts + (if isf then xf else 0)) vs ->
  ha F (match_outputs F it isum is_fee not_fee fee flag outs) c (fun o c' => has F c' o (fl * absent xi vs)).
Proof.
  induction outs as [|[ot osum] outs IH]; intros c flag fl vs HI H1 H2 H3 H4 H5 K H6 HB;
    inversion K as [|? ? ? ? [K1 K2] K3]; subst; cbn [match_outputs].
  - apply hr; [exact HI|]. unfold absent. cbn. replace (fl * 1) with fl by ring. exact H6.
  - destruct y as [ty sy]. cbn [fst snd] in *. fold (knownh c outs l') in K3. clear K.
    inversion HB as [|? ? HB1 HB2]; subst. cbn [fst snd] in HB1.
    eapply hb; [apply (ha_is_equal_or_not F c it ot xi ty); assumption|]. intros p c1 I1 E1 [P1 P2]. lift E1.
    eapply hb; [eapply (ha_mul F c1 flag (snd p)); eassumption|]. intros flag' c2 I2 E2 Hf. lift E2.
    eapply hb; [apply (ha_sub F c2 isum osum si sy); assumption|]. intros diff c3 I3 E3 Hd. lift E3.
    eapply hb; [eapply (ha_mul F c3 (fst p) not_fee); eassumption|]. intros a c4 I4 E4 Ha. lift E4.
    eapply hb.
    { eapply (ha_mul_gate F c4 a diff zero_var _ _ 0); try eassumption; [now apply has_zero|].
      destruct (f_dec xi ty) as [e|n]; [|ring]. rewrite (HB1 (eq_sym e)).
      destruct isf; cbn [ind negb]; ring. }
    intros u1 c5 I5 E5 _. lift E5.
    eapply hb; [eapply (ha_mul F c5 (fst p) is_fee); eassumption|]. intros b c6 I6 E6 Hb. lift E6.
    eapply hb; [eapply (ha_sub F c6 diff fee); eassumption|]. intros dmf c7 I7 E7 Hdm. lift E7.
    eapply hb.
    { eapply (ha_mul_gate F c7 b dmf zero_var _ _ 0); try eassumption; [now apply has_zero|].
      destruct (f_dec xi ty) as [e|n]; [|ring]. rewrite (HB1 (eq_sym e)).
      destruct isf; cbn [ind negb]; ring. }
    intros u2 c8 I8 E8 _. lift E8.
    eapply hw; [eapply (IH c8 flag'); eassumption|]. intros o c9 _ _ Ho.
    rewrite absent_cons.
    replace (fl * ((if f_dec xi ty then 0 else 1) * absent xi l')) with (fl * (if f_dec xi ty then 0 else 1) * absent xi l') by ring.
    exact Ho.
Qed.

Lemma ha_per_input outs ftv fee ft xf ov : forall ins c flag fl iv,
  Inv c -> has F c ftv ft -> has F c fee xf -> knownh c outs ov -> knownh c ins iv -> has F c flag fl ->
  Forall (fun ti =>
    Forall (fun ts => fst ts = fst ti -> snd ti = snd ts + (if f_dec (fst ti) ft then xf else 0)) ov /\
    (fst ti <> ft -> has_type (fst ti) ov) /\
    (fst ti = ft -> has_type (fst ti) ov \/ snd ti = xf)) iv ->
  ha F (per_input F ins outs ftv fee flag) c (fun o c' => has F c' o (fl * absent ft iv)).
Proof.
  induction ins as [|[it isum] ins IH]; intros c flag fl iv HI H1 H2 Ko K H3 HB;
    inversion K as [|? ? ? ? [K1 K2] K3]; subst; cbn [per_input].
  - apply hr; [exact HI|]. unfold absent. cbn. replace (fl * 1) with fl by ring. exact H3.
  - destruct y as [xi si]. cbn [fst snd] in *. fold (knownh c ins l') in K3. clear K.
    inversion HB as [|? ? [HB1 [HB3 HB4]] HB2]; subst. cbn [fst snd] in HB1, HB3, HB4.
    eapply hb; [apply (ha_is_equal_or_not F c it ftv xi ft); assumption|]. intros p c1 I1 E1 [P1 P2]. lift E1.
    eapply hb; [eapply (ha_mul F c1 flag (snd p)); eassumption|]. intros flag' c2 I2 E2 Hf. lift E2.
    set (isf := if f_dec xi ft then true else false).
    assert (P1' : has F c2 (fst p) (ind isf)) by (unfold isf; destruct (f_dec xi ft); exact P1).
    assert (P2' : has F c2 (snd p) (ind (negb isf))) by (unfold isf; destruct (f_dec xi ft); exact P2).
    eapply hb.
    { apply (ha_match_outputs it isum (fst p) (snd p) fee xi si isf xf outs c2 one_var 1 ov); try assumption; [now apply has_one|].
      eapply Forall_impl; [|exact HB1]. intros ts Hts Et. cbn beta in Hts. rewrite (Hts Et). unfold isf. destruct (f_dec xi ft); reflexivity. }
    intros nm c3 I3 E3 Hn. lift E3.
    replace (1 * absent xi ov) with (absent xi ov) in Hn by ring.
    eapply hb.
    { eapply (ha_mul_gate F c3 (snd p) nm zero_var _ _ 0); try eassumption; [now apply has_zero|].
      unfold isf. destruct (f_dec xi ft) as [e|n]; cbn [ind negb]; [ring|].
      unfold absent. destruct (in_dec f_dec xi (map fst ov)) as [_|n']; [ring|]. exfalso. apply n'. now apply HB3. }
    intros u1 c4 I4 E4 _. lift E4.
    eapply hb; [eapply (ha_sub F c4 isum fee); eassumption|]. intros imf c5 I5 E5 Him. lift E5.
    eapply hb; [eapply (ha_mul F c5 (fst p) nm); eassumption|]. intros cd c6 I6 E6 Hcd. lift E6.
    eapply hb.
    { eapply (ha_mul_gate F c6 cd imf zero_var _ _ 0); try eassumption; [now apply has_zero|].
      unfold isf. destruct (f_dec xi ft) as [e|n]; cbn [ind negb]; [|ring].
      unfold absent. destruct (in_dec f_dec xi (map fst ov)) as [_|n']; [ring|].
      destruct (HB4 e) as [Hh| ->]; [contradiction|ring]. }
    intros u2 c7 I7 E7 _. lift E7.
    eapply hw; [eapply (IH c7 flag'); eassumption|]. intros o c8 _ _ Ho. rewrite absent_cons.
    replace (fl * ((if f_dec ft xi then 0 else 1) * absent ft l')) with (fl * (if f_dec xi ft then 0 else 1) * absent ft l').
    + exact Ho.
    + destruct (f_dec xi ft), (f_dec ft xi); try congruence; ring.
Qed.

Lemma ha_type_product ot xo : forall ins iv c product p, Inv c -> knownh c ins iv -> has F c ot xo -> has F c product p ->
  ha F (type_product F ins ot product) c (fun o c' => exists q, has F c' o q /\ (p = 0 \/ has_type xo iv -> q = 0)).
Proof.
  induction ins as [|[it v] ins IH]; intros iv c product p HI K Ho Hp; inversion K as [|? ? ? ? [K1 K2] K3]; subst; cbn [type_product].
  - apply hr; [exact HI|]. exists p. split; [exact Hp|]. intros [H|[]]. exact H.
  - destruct y as [xi vi]. cbn [fst snd] in *. fold (knownh c ins l') in K3. clear K.
    eapply hb; [apply (ha_sub F c it ot xi xo); assumption|]. intros d c1 I1 E1 Hd. lift E1.
    eapply hb; [eapply (ha_mul F c1 product d); eassumption|]. intros p' c2 I2 E2 Hp'. lift E2.
    eapply hw; [eapply (IH l' c2 p'); eassumption|]. intros o c3 _ _ [q [Hq Hz]]. exists q. split; [exact Hq|].
    intros [->|[E|H]]; apply Hz; [left; ring| |right; exact H]. cbn in E. subst. left. ring.
Qed.
Lemma ha_outputs_covered ins iv : forall outs ov c, Inv c -> knownh c ins iv -> knownh c outs ov ->
  Forall (fun t => has_type t iv) (map fst ov) ->
  ha F (outputs_covered F outs ins) c (fun _ _ => True).
Proof.
  induction outs as [|[ot v] outs IH]; intros ov c HI Ki K HB; inversion K as [|? ? ? ? [K1 K2] K3]; subst; cbn [outputs_covered].
  - apply hr; [exact HI|exact I].
  - destruct y as [xo vo]. cbn [fst snd map] in *. fold (knownh c outs l') in K3. clear K.
    inversion HB as [|? ? HB1 HB2]; subst.
    eapply hb; [apply (ha_type_product ot xo ins iv c one_var 1); try assumption; now apply has_one|].
    intros p c1 I1 E1 [q [Hq Hz]]. lift E1. rewrite (Hz (or_intror HB1)) in Hq.
    eapply hb; [apply (ha_const_gate F c1 p 0); assumption|]. intros u c2 I2 E2 _. lift E2.
    apply (IH l' c2); assumption.
Qed.

Theorem asset_mixing_complete ins outs ft fee iv ov xf c :
  Inv c -> knownh c ins iv -> knownh c outs ov -> has F c fee xf ->
  (forall t, t <> ft -> fsum_of t iv = fsum_of t ov) -> fsum_of ft iv = fsum_of ft ov + xf ->
  has_type ft iv -> (forall t, has_type t ov -> has_type t iv) ->
  (forall t, t <> ft -> has_type t iv -> has_type t ov) ->
  ha F (asset_mixing F ins outs ft fee) c (fun _ _ => True).
Proof.
  intros HI Ki Ko Hf B1 B2 B3 B4 B5. unfold asset_mixing.
  eapply hb; [apply (ha_type_sums ins iv ins iv c); assumption|]. intros is c1 I1 E1 His. lift E1.
  eapply hb; [apply (ha_type_sums outs ov outs ov c1); assumption|]. intros os c2 I2 E2 Hos. lift E2.
  eapply hb; [apply (ha_new F c2 ft I2)|]. intros ftv c3 I3 E3 Hftv. lift E3.
  eapply hb; [apply (ha_const_gate F c3 ftv ft); assumption|]. intros u1 c4 I4 E4 _. lift E4.
  eapply hb.
  { eapply (ha_per_input os ftv fee ft xf _ is c4 one_var 1); try eassumption; [now apply has_one|].
    apply Forall_forall. intros ti Hti. apply in_map_iff in Hti. destruct Hti as [tv [<- Htv]]. cbn [fst snd].
    assert (Hin : has_type (fst tv) iv) by (unfold has_type; now apply in_map).
    assert (Ht : forall t, has_type t (map (fun tv : F * F => (fst tv, fsum_of (fst tv) ov)) ov) <-> has_type t ov).
    { intros t. unfold has_type. rewrite map_map. cbn [fst]. reflexivity. }
    split; [|split].
    - apply Forall_forall. intros ts Hts. apply in_map_iff in Hts. destruct Hts as [tv' [<- _]]. cbn [fst snd].
      intros E. rewrite E. destruct (f_dec (fst tv) ft) as [e|n]; [now rewrite e|]. rewrite (B1 _ n). ring.
    - intros n. apply Ht. now apply B5.
    - intros e. destruct (in_dec (f_dec (f := F)) ft (map fst ov)) as [Hi|Ho]; [left; apply Ht; now rewrite e|].
      right. rewrite e, B2, (fsum_absent ft ov Ho). ring. }
  intros flag c5 I5 E5 Hflag. lift E5.
  assert (Z : 1 * absent ft (map (fun tv : F * F => (fst tv, fsum_of (fst tv) iv)) iv) = 0).
  { unfold absent. rewrite map_map. cbn [fst].
    destruct (in_dec (f_dec (f := F)) ft (map (fun x : F * F => fst x) iv)) as [_|n]; [ring|].
    exfalso. apply n. exact B3. }
  rewrite Z in Hflag.
  eapply hb; [apply (ha_const_gate F c5 flag 0); assumption|]. intros u2 c6 I6 E6 _. lift E6.
  apply (ha_outputs_covered ins iv outs ov c6); try assumption.
  apply Forall_forall. intros t Ht. now apply B4.
Qed.
End Circuit.
