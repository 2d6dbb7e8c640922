(** Simulated arithmetic: honest runs. *)
From Coq Require Import List ZArith Bool Lia ZifyBool ZifyNat Field.
From Verif Require Import Base Field PField TurboModel TurboSpec TurboProofs TurboHonest TurboKit RescueModel RescueProofs
  SimModel SimSpec SimProofs SimZero SimCircuit.
Import ListNotations.
Local Open Scope Z_scope.

Section Honest.
Context (F : PField) (Hp : 2 ^ 254 <= pchar F).
Add Field Fsimh : (f_th F).
Local Open Scope F_scope.
Notation all c := (Forall2 (has F c)).

Lemma has_nth (c : tcs F) vs xs i : Inv c -> all c vs xs -> has F c (nth i vs 0%nat) (nth i xs 0).
Proof.
  intros HI H. revert i. induction H as [|v x vs xs H _ IH]; intros [|i]; cbn [nth]; auto; now apply has_zero.
Qed.
Lemma all_mono c c' vs xs : extends c c' -> all c vs xs -> all c' vs xs.
Proof. intros X. apply Forall2_impl. intros v x. now apply has_mono. Qed.
Lemma all_len c vs xs : all c vs xs -> length vs = length xs.
Proof. apply Forall2_len. Qed.
Lemma nth_self {A} (l : list A) n d : length l = n -> map (fun i => nth i l d) (seq 0 n) = l.
Proof.
  intros <-. induction l as [|a l IH]; [reflexivity|]. cbn [length seq map nth]. f_equal. rewrite <- seq_shift, map_map. exact IH.
Qed.
Lemma in_combine_map {A B} (f : A -> B) l a x : In (a, x) (combine l (map f l)) -> x = f a /\ In a l.
Proof. induction l as [|b l IH]; cbn; [tauto|]. intros [E|H]; [injection E as -> ->; auto|]. destruct (IH H). auto. Qed.
Lemma ha_seq {A} (f : A -> CS F nat) (g : A -> F) l c : Inv c ->
  (forall a c', In a l -> Inv c' -> extends c c' -> ha F (f a) c' (fun o c'' => has F c'' o (g a))) ->
  ha F (RescueModel.mapM F f l) c (fun os c' => all c' os (map g l)).
Proof.
  intros HI H. apply mapM_ha; [exact HI|now rewrite map_length|]. intros a x c' Hin. apply in_combine_map in Hin.
  destruct Hin as [-> Hin]. intros. now apply H.
Qed.
Lemma ha_out c (x : F) (g : nat -> gate F) : Inv c ->
  (forall o c', extends c c' -> has F c' o x -> gate_eq (val c') (g o) /\ wire_lt (nvars c') (g o) /\ g_bool (g o) = false) ->
  ha F (bnd (new_variable F x) (fun o => bnd (push_gate F (g o)) (fun _ => ret o))) c (fun o c' => has F c' o x).
Proof.
  intros HI H. eapply hb; [apply ha_new, HI|]. intros o c1 I1 X1 H1. destruct (H o c1 X1 H1) as (G1 & G2 & G3).
  eapply hb; [apply ha_push; auto; now apply nobool|]. intros _ c2 I2 X2 _. apply hr; [exact I2|]. eapply has_mono; eassumption.
Qed.
Ltac wires := split; [cbn; unfold zero_var; repeat split; auto; lia|exact I].

Lemma var_sub_ha P (a b : simvar F) v c : Inv c -> all c (svar a) (limbs (sv a)) -> all c (svar b) (limbs (sv b)) ->
  sim_sub P (sv a) (sv b) = Ok v -> har F (var_sub P a b) c (fun o c' => sv o = v /\ all c' (svar o) (limbs v)).
Proof.
  intros HI Ha Hb Ev. unfold var_sub. eapply hr_bind; [apply (hr_res F _ v); auto|]. intros u c1 I1 X1 ->.
  apply hr_lift. eapply hb.
  { apply (ha_seq _ (fun i => nth i (limbs v) 0)); [exact I1|]. intros i c2 Hi I2 X2. apply in_seq in Hi. apply ha_out; [exact I2|].
    intros o c3 X3 Ho.
    assert (X : extends c c3) by (eapply extends_trans; [exact X1|eapply extends_trans; eassumption]).
    pose proof (has_mono F _ _ _ _ X (has_nth c _ _ i HI Ha)) as [A1 A2]. pose proof (has_mono F _ _ _ _ X (has_nth c _ _ i HI Hb)) as [B1 B2].
    destruct Ho as [O1 O2]. split; [|split; [|reflexivity]].
    - apply sub_row_eq. rewrite O2, A2, B2. unfold sim_sub in Ev.
      destruct (red (sv b)); try discriminate; (destruct (_ <? _)%Z; [discriminate|]; apply Ok_inj in Ev; rewrite <- Ev; cbn [limbs];
      rewrite nth_map_seq by (unfold NUM_OF_LIMBS in *; lia); ring).
    - wires. }
  intros l c2 I2 X2 H. apply hr; [exact I2|]. cbn [sv svar]. split; [reflexivity|].
  rewrite nth_self in H; [exact H|]. unfold sim_sub in Ev.
  destruct (red (sv b)); try discriminate; (destruct (_ <? _)%Z; [discriminate|]; apply Ok_inj in Ev; rewrite <- Ev; cbn [limbs]; now rewrite map_length, seq_length).
Qed.
Lemma mac_loop_ha (a b : simvar F) i ls : forall prior x c, Inv c -> all c (svar a) (limbs (sv a)) -> all c (svar b) (limbs (sv b)) -> has F c prior x ->
  ha F (mac_loop F a b i ls prior x) c (fun o c' =>
    has F c' o (fold_left (fun acc l => acc + nth l (limbs (sv a)) 0 * nth (i - l) (limbs (sv b)) 0) ls x)).
Proof.
  induction ls as [|l ls IH]; intros prior x c HI Ha Hb Hx; cbn [mac_loop fold_left].
  - now apply hr.
  - cbn zeta. eapply hb; [apply ha_new, HI|]. intros o c1 I1 X1 H1.
    pose proof (has_mono F _ _ _ _ X1 (has_nth c _ _ l HI Ha)) as [A1 A2]. pose proof (has_mono F _ _ _ _ X1 (has_nth c _ _ (i - l) HI Hb)) as [B1 B2].
    destruct (has_mono F _ _ _ _ X1 Hx) as [C1 C2]. pose proof H1 as [D1 D2].
    eapply hb.
    { apply ha_push; [exact I1|wires| |now apply nobool]. apply mac_row_eq. now rewrite A2, B2, C2, D2. }
    intros _ c2 I2 X2 _. assert (X : extends c c2) by (eapply extends_trans; eassumption).
    apply IH; [exact I2|eapply all_mono; eassumption|eapply all_mono; eassumption|exact (has_mono F _ _ _ _ X2 H1)].
Qed.
Lemma var_mul_ha (a b : simvar F) c : Inv c -> all c (svar a) (limbs (sv a)) -> all c (svar b) (limbs (sv b)) ->
  ha F (var_mul a b) c (fun o c' => mv o = sim_mul (sv a) (sv b) /\ all c' (mvar o) (mlimbs (mv o))).
Proof.
  intros HI Ha Hb. unfold var_mul. eapply hb.
  { apply (ha_seq _ (fun i => fold_left (fun acc l => acc + nth l (limbs (sv a)) 0 * nth (i - l) (limbs (sv b)) 0) (lefts i) 0)); [exact HI|].
    intros i c1 _ I1 X1. apply mac_loop_ha; [exact I1|eapply all_mono; eassumption|eapply all_mono; eassumption|now apply has_zero]. }
  intros l c1 I1 X1 H. apply hr; [exact I1|]. cbn [mv mvar sim_mul mlimbs]. auto.
Qed.
Lemma mulvar_add_ha (a b : simulvar F) c : Inv c -> all c (mvar a) (mlimbs (mv a)) -> all c (mvar b) (mlimbs (mv b)) ->
  ha F (mulvar_add a b) c (fun o c' => mv o = simul_add (mv a) (mv b) /\ all c' (mvar o) (mlimbs (mv o))).
Proof.
  intros HI Ha Hb. unfold mulvar_add. cbn zeta. eapply hb.
  { apply (ha_seq _ (fun i => nth i (mlimbs (simul_add (mv a) (mv b))) 0)); [exact HI|]. intros i c1 Hi I1 X1. apply in_seq in Hi.
    apply ha_out; [exact I1|]. intros o c2 X2 [O1 O2]. assert (X : extends c c2) by (eapply extends_trans; eassumption).
    pose proof (has_mono F _ _ _ _ X (has_nth c _ _ i HI Ha)) as [A1 A2]. pose proof (has_mono F _ _ _ _ X (has_nth c _ _ i HI Hb)) as [B1 B2].
    split; [|split; [|reflexivity]].
    - apply add_row_eq. rewrite O2, A2, B2. cbn [simul_add mlimbs]. now rewrite nth_map_seq by lia.
    - wires. }
  intros l c1 I1 X1 H. apply hr; [exact I1|]. cbn [mv mvar]. split; [reflexivity|].
  rewrite nth_self in H; [exact H|]. cbn [simul_add mlimbs]. now rewrite map_length, seq_length.
Qed.
Lemma all_skipn c vs xs n : all c vs xs -> all c (skipn n vs) (skipn n xs).
Proof. intros H. revert n. induction H as [|v x vs xs H H' IH]; intros [|n]; cbn [skipn]; auto. Qed.
Lemma mulvar_sub_ha P (a : simulvar F) (b : simvar F) v c : Inv c -> all c (mvar a) (mlimbs (mv a)) -> all c (svar b) (limbs (sv b)) ->
  simul_sub P (mv a) (sv b) = Ok v -> har F (mulvar_sub P a b) c (fun o c' => mv o = v /\ all c' (mvar o) (mlimbs v)).
Proof.
  intros HI Ha Hb Ev. unfold mulvar_sub. eapply hr_bind; [apply (hr_res F _ v); auto|]. intros u c1 I1 X1 ->.
  assert (El : mlimbs v = map (fun i => nth i (mlimbs (mv a)) 0 - nth i (limbs (sv b)) 0 + pad4 F P i) (seq 0 6) ++ skipn 6 (mlimbs (mv a))).
  { unfold simul_sub in Ev. destruct (4 <? _)%Z; [discriminate|]. destruct (_ <? _)%Z; [discriminate|]. apply Ok_inj in Ev. rewrite <- Ev.
    cbn [mlimbs]. unfold NUM_OF_LIMBS. f_equal. apply map_ext. intros i. cbn zeta. unfold pad4. ring. }
  apply hr_lift. eapply hb.
  { apply (ha_seq _ (fun i => nth i (mlimbs v) 0)); [exact I1|]. intros i c2 Hi I2 X2. apply in_seq in Hi. apply ha_out; [exact I2|].
    intros o c3 X3 Ho.
    assert (X : extends c c3) by (eapply extends_trans; [exact X1|eapply extends_trans; eassumption]).
    pose proof (has_mono F _ _ _ _ X (has_nth c _ _ i HI Ha)) as [A1 A2]. pose proof (has_mono F _ _ _ _ X (has_nth c _ _ i HI Hb)) as [B1 B2].
    destruct Ho as [O1 O2]. split; [|split; [|reflexivity]].
    - apply sub_row_eq. rewrite O2, A2, B2, El. rewrite app_nth1 by (rewrite map_length, seq_length; unfold NUM_OF_LIMBS in *; lia).
      now rewrite nth_map_seq by (unfold NUM_OF_LIMBS in *; lia).
    - wires. }
  intros l c2 I2 X2 H. apply hr; [exact I2|]. cbn [mv mvar]. split; [reflexivity|].
  rewrite El. apply Forall2_app.
  - replace (map (fun i => nth i (mlimbs (mv a)) 0 - nth i (limbs (sv b)) 0 + pad4 F P i) (seq 0 6)) with (map (fun i => nth i (mlimbs v) 0) (seq 0 NUM_OF_LIMBS)); [exact H|].
    apply map_ext_in. intros i Hi. apply in_seq in Hi. rewrite El, app_nth1 by (rewrite map_length, seq_length; unfold NUM_OF_LIMBS in *; lia).
    now rewrite nth_map_seq by (unfold NUM_OF_LIMBS in *; lia).
  - apply all_skipn. eapply all_mono; [|exact Ha]. eapply extends_trans; eassumption.
Qed.

(** ** The zero check *)
Lemma rk_loop_ha rl ks kl i n : forall ls, (length ls <= n)%nat -> forall acc x c, Inv c -> all c ks kl -> has F c acc x ->
  ha F (rk_loop F rl ks i ls acc) c (fun o c' =>
    has F c' o (fold_left (fun acc l => acc + nth l rl 0 * nth (i - l) kl 0) ls x)).
Proof.
  induction n as [|n IH]; intros ls Hn acc x c HI Hk Hx.
  { destruct ls; [|cbn in Hn; lia]. cbn [rk_loop]. now apply hr. }
  pose proof (has_zero F c HI) as H0.
  destruct ls as [|a [|b [|d ls]]]; cbn [rk_loop].
  - now apply hr.
  - eapply hw; [apply ha_linear_combine; [exact HI|exact Hx|apply (has_nth c ks kl); auto|exact H0|exact H0]|]. intros o c' _ _ H.
    cbn [fold_left]. replace (x + nth a rl 0 * nth (i - a) kl 0) with (1 * x + nth a rl 0 * nth (i - a) kl 0 + 0 * 0 + 0 * 0) by ring. exact H.
  - eapply hw; [apply ha_linear_combine; [exact HI|exact Hx|apply (has_nth c ks kl); auto|apply (has_nth c ks kl); auto|exact H0]|]. intros o c' _ _ H.
    cbn [fold_left]. cbn beta in *; match type of H with has _ _ _ ?v => match goal with |- has _ _ _ ?u => replace u with v by ring end end. exact H.
  - eapply hb; [apply ha_linear_combine; [exact HI|exact Hx|apply (has_nth c ks kl); auto|apply (has_nth c ks kl); auto|apply (has_nth c ks kl); auto]|].
    intros o c1 I1 X1 H. cbn [fold_left]. apply IH; [cbn in Hn; lia|exact I1|eapply all_mono; eassumption|].
    cbn beta in *; match type of H with has _ _ _ ?v => match goal with |- has _ _ _ ?u => replace u with v by ring end end. exact H.
Qed.
Definition hastriple (c : tcs F) (v : nat * nat) (g : F * F * nat) : Prop := has F c (fst v) (fst (fst g)) /\ has F c (snd v) (snd (fst g)).
Lemma group_vars_ha P xs : forall ys l r c, Inv c -> length xs = length ys -> all c l xs -> all c r ys ->
  ha F (group_vars F P l r) c (fun vs c' => Forall2 (hastriple c') vs (zip_groups F P xs ys)).
Proof.
  induction xs as [|a|a b xs IH] using pair_ind; intros ys l r c HI HL Hl Hr.
  - destruct ys; [|discriminate]. inversion Hl; subst. inversion Hr; subst. cbn [group_vars]. apply hr; [exact HI|constructor].
  - destruct ys as [|a' [|]]; try discriminate. inversion Hl as [|v1 ? l1 ? H1 H1']; subst. inversion H1'; subst.
    inversion Hr as [|v2 ? l2 ? H2 H2']; subst. inversion H2'; subst. cbn [group_vars]. apply hr; [exact HI|]. constructor; [split; assumption|constructor].
  - destruct ys as [|a' [|b' ys]]; try discriminate. inversion Hl as [|v1 ? l1 ? H1 H1']; subst. inversion H1' as [|v2 ? l2 ? H2 H2']; subst.
    inversion Hr as [|v3 ? l3 ? H3 H3']; subst. inversion H3' as [|v4 ? l4 ? H4 H4']; subst. cbn [group_vars].
    eapply hb; [apply ha_linear_combine; [exact HI|exact H1|apply has_zero, HI|exact H2|apply has_zero, HI]|]. intros o c1 I1 X1 G1.
    eapply hb; [apply ha_linear_combine; [exact I1|eapply has_mono; eassumption|apply has_zero, I1|eapply has_mono; eassumption|apply has_zero, I1]|].
    intros o' c2 I2 X2 G2. assert (X : extends c c2) by (eapply extends_trans; eassumption).
    eapply hb; [apply (IH ys); [exact I2|cbn in HL; lia|eapply all_mono; eassumption|eapply all_mono; eassumption]|]. intros vs c3 I3 X3 G3.
    apply hr; [exact I3|]. unfold zip_groups in *. cbn [groups combine map fst snd]. constructor; [|exact G3].
    split; cbn [fst snd].
    + apply (has_mono F c1 c3) in G1; [|eapply extends_trans; eassumption].
      replace (a + b * fofZ (step P)) with (1 * a + 0 * 0 + fofZ (step P) * b + 0 * 0) by ring. exact G1.
    + apply (has_mono F c2 c3) in G2; [|assumption].
      replace (a' + b' * fofZ (step P)) with (1 * a' + 0 * 0 + fofZ (step P) * b' + 0 * 0) by ring. exact G2.
Qed.
Lemma carry_loop_ha P Zs : facts P -> forall vs cv k a c, Inv c -> ready P Zs k a -> Forall2 (hastriple c) vs (map (toF3 F) Zs) -> has F c cv (fofZ k) ->
  ha F (carry_loop F P (combine (map (toF3 F) Zs) vs) (fofZ k) cv a) c (fun _ _ => True).
Proof.
  intros K. induction Zs as [|[[l r] n] Zs IH]; intros vs cv k a c HI HR HV HC.
  { cbn [map combine carry_loop]. now apply hr. }
  cbn [map] in HV. inversion HV as [|v ? vs' ? Hv HV']; subst. destruct v as [lv rv]. destruct Hv as [Hl Hr]. cbn [fst snd toF3] in Hl, Hr.
  pose proof (f_st P K) as Hs. pose proof (st2_le P K) as S2.
  destruct (ready_next P _ _ _ _ _ _ K HR) as (H1 & H2 & H3 & H4 & H5 & H6 & H7 & H8).
  cbn [map combine]. unfold toF3 at 1. cbn [fst snd carry_loop].
  rewrite (carry_next F Hp P l r n Zs k a K HR), (pad_toZ F Hp P K l r n Zs k a HR). cbn zeta.
  eapply hb; [apply ha_new, HI|]. intros co c1 I1 X1 G1.
  destruct (has_mono F _ _ _ _ X1 Hl) as [L1 L2]. destruct (has_mono F _ _ _ _ X1 Hr) as [R1 R2]. destruct (has_mono F _ _ _ _ X1 HC) as [C1 C2].
  pose proof G1 as [D1 D2].
  eapply hb.
  { apply ha_push; [exact I1|wires| |now apply nobool]. apply carry_row_eq. rewrite L2, R2, C2, D2.
    pose proof (carry_equation F P l r n Zs k a K HR) as E.
    transitivity ((fofZ l + fofZ (pad P n) + fofZ k - fofZ r) + fofZ r - fofZ ((a + pad P n) mod shift P n)%Z : F); [ring|]. rewrite E. ring. }
  intros _ c2 I2 X2 _.
  apply (has_mono F c1 c2) in G1; [|exact X2].
  eapply (hb F _ _ _ (fun _ _ => True)).
  { destruct Zs as [|z Zs]; cbn [map].
    - destruct vs' as [|]; cbn [combine]; apply ha_const_gate; auto; rewrite <- (ready_nil P _ _ H8); exact G1.
    - destruct vs' as [|v' vs']; [inversion HV'|]. cbn [combine].
      eapply hb; [apply (ha_range_check F c2 co _ (fofZ (next P l r n k))); [exact I2|unfold surfeit; lia|exact G1|]|].
      + rewrite bound_carry. rewrite toZ_small by lia. lia.
      + intros b c3 I3 X3 _. now apply hr. }
  intros _ c3 I3 X3 _. assert (X : extends c c3) by (eapply extends_trans; [exact X1|eapply extends_trans; eassumption]).
  apply IH; [exact I3|exact H8| |exact (has_mono F _ _ _ _ X3 G1)].
  eapply Forall2_impl; [|exact HV']. intros v g [Q1 Q2]. split; eapply has_mono; try exact X; assumption.
Qed.
Lemma kwidth_pow P i : facts P -> (2 ^ Z.of_nat (kwidth P i) = if Nat.eqb i 5 then 32 * tp P else st P)%Z.
Proof.
  intros K. unfold kwidth, NUM_OF_LIMBS. cbn [Nat.sub]. destruct (Nat.eqb i 5); [|reflexivity].
  rewrite Nat2Z.inj_add, Z.pow_add_r by lia. change (2 ^ Z.of_nat 5)%Z with 32%Z. unfold tp. ring.
Qed.
Lemma var_enforce_zero_ha P (m : simulvar F) x c : facts P -> Inv c -> all c (mvar m) (mlimbs (mv m)) ->
  mrepresents P (mv m) x -> (prod_additions (mv m) < 32)%Z -> (x mod modulus P = 0)%Z ->
  har F (var_enforce_zero P m) c (fun _ _ => True).
Proof.
  intros K HI Hm R Hn Hx. unfold var_enforce_zero. destruct (multiple_ready F Hp P (mv m) x K R Hn Hx) as (E3 & Rd & Hk). cbn zeta in *.
  destruct (quotient_ok F Hp P _ K Hk) as (Lk & Bk & Nk & Tk). cbn zeta in *.
  eapply hr_bind; [apply hr_require; [exact HI|now apply Z.ltb_lt]|]. intros _ c1 I1 X1 _.
  eapply hr_bind; [apply (hr_res F _ x); [exact I1|now apply (minto_represents F P)]|]. intros y c2 I2 X2 ->. cbn zeta.
  eapply hr_bind.
  { apply hr_require; [exact I2|]. rewrite E3. apply forallb_forall. intros g Hg. apply in_map_iff in Hg. destruct Hg as [[[l r] n] [<- Hz]].
    destruct Rd as [Rg _]. rewrite Forall_forall in Rg. specialize (Rg _ Hz). cbn [toF3 fst snd]. pose proof (st2_le P K). pose proof (st3_le P K). pose proof (f_st P K).
    destruct Rg as [(-> & Hl & Hr) | (-> & Hl & Hr)]; rewrite toZ_small by lia; apply Z.ltb_lt; [rewrite pad2|rewrite pad1]; nia. }
  intros _ c3 I3 X3 _. apply hr_lift. unfold enforce_zero_gates. set (kl := limbs (sim_from F P (x / modulus P))) in *.
  assert (Lkl : length kl = 6%nat) by (rewrite map_length in Lk; exact Lk).
  eapply hb.
  { apply (ha_seq _ (fun i => nth i kl 0)); [exact I3|]. intros i c4 Hi I4 X4. apply in_seq in Hi.
    eapply hb; [apply ha_new, I4|]. intros o c5 I5 X5 G5. destruct (kwidth_le P K i) as [W1 W2].
    eapply hb; [apply (ha_range_check F c5 o _ _ I5 W1 G5)|].
    - rewrite <- nth_toZ, kwidth_pow by exact K. destruct (Nat.eqb_spec i 5) as [-> | Ni]; [exact Tk|].
      assert (Hz : In (nth i (map toZ kl) 0%Z) (map toZ kl)) by (apply nth_In; unfold NUM_OF_LIMBS in *; lia).
      rewrite Forall_forall in Bk. apply Bk in Hz. lia.
    - intros b c6 I6 X6 _. apply hr; [exact I6|]. eapply has_mono; eassumption. }
  intros ks c4 I4 X4 Hks. unfold NUM_OF_LIMBS in Hks. rewrite nth_self in Hks by exact Lkl.
  eapply hb.
  { apply (ha_seq _ (fun i => fold_left (fun acc l => acc + nth l (map fofZ (modulus_limbs P)) 0 * nth (i - l) kl 0) (lefts i) 0)); [exact I4|].
    intros i c5 _ I5 X5. apply (rk_loop_ha _ _ kl _ (length (lefts i))); [lia|exact I5|eapply all_mono; eassumption|now apply has_zero]. }
  intros rks c5 I5 X5 Hrk. change (all c5 rks (convolve F (map fofZ (modulus_limbs P)) kl)) in Hrk.
  assert (X : extends c c5).
  { eapply extends_trans; [exact X1|]. eapply extends_trans; [exact X2|]. eapply extends_trans; [exact X3|]. eapply extends_trans; eassumption. }
  eapply hb.
  { apply (group_vars_ha P (mlimbs (mv m)) (convolve F (map fofZ (modulus_limbs P)) kl)); [exact I5| |eapply all_mono; eassumption|exact Hrk].
    destruct R as ((Lm & _) & _). rewrite map_length in Lm. unfold convolve. now rewrite map_length, seq_length. }
  intros vs c6 I6 X6 Hvs. rewrite E3 in *.
  apply (carry_loop_ha P _ K vs zero_var 0 0 c6 I6 Rd Hvs). now apply has_zero.
Qed.

(** ** Whole computations *)
Definition honest_leaf (c : tcs F) (v : simvar F) : Prop := all c (svar v) (limbs (sv v)).
Lemma leaves_mono c c' e : extends c c' -> sleaves (honest_leaf c) e -> sleaves (honest_leaf c') e.
Proof. intros X. induction e as [v|a IHa b IHb]; cbn [sleaves]; [now apply all_mono|]. intros [H1 H2]; auto. Qed.
Lemma mleaves_mono c c' e : extends c c' -> mleaves (honest_leaf c) e -> mleaves (honest_leaf c') e.
Proof. intros X. induction e as [a b|a IHa b IHb|a IHa b]; cbn [mleaves]; intros [H1 H2]; split; auto; eapply leaves_mono; eassumption. Qed.
Lemma sbuild_ha P e : forall v c, Inv c -> sleaves (honest_leaf c) e -> seval P (@sv F) e = Ok v ->
  har F (sbuild P e) c (fun o c' => sv o = v /\ honest_leaf c' o).
Proof.
  induction e as [l|a IHa b IHb]; intros v c HI HL Ev; cbn [sbuild sleaves seval] in *.
  - apply Ok_inj in Ev. subst v. apply hr_ret; auto.
  - destruct HL as [La Lb]. apply bind_ok in Ev. destruct Ev as (x & Ex & Ev). apply bind_ok in Ev. destruct Ev as (y & Ey & Ev).
    eapply hr_bind; [apply (IHa _ _ HI La Ex)|]. intros vx c1 I1 X1 [<- Hx].
    eapply hr_bind; [apply (IHb _ _ I1 (leaves_mono _ _ _ X1 Lb) Ey)|]. intros vy c2 I2 X2 [<- Hy].
    eapply hr_weak; [apply (var_sub_ha P vx vy v c2 I2); [eapply all_mono; eassumption|exact Hy|exact Ev]|].
    intros o c' _ _ [<- H]. split; [reflexivity|exact H].
Qed.
Lemma mbuild_ha P e : forall v c, Inv c -> mleaves (honest_leaf c) e -> meval P (@sv F) e = Ok v ->
  har F (mbuild P e) c (fun o c' => mv o = v /\ all c' (mvar o) (mlimbs v)).
Proof.
  induction e as [a b|a IHa b IHb|a IHa b]; intros v c HI [La Lb] Ev; cbn [mbuild meval] in *;
    apply bind_ok in Ev; destruct Ev as (x & Ex & Ev); apply bind_ok in Ev; destruct Ev as (y & Ey & Ev).
  - eapply hr_bind; [apply (sbuild_ha P a _ _ HI La Ex)|]. intros vx c1 I1 X1 [<- Hx].
    eapply hr_bind; [apply (sbuild_ha P b _ _ I1 (leaves_mono _ _ _ X1 Lb) Ey)|]. intros vy c2 I2 X2 [<- Hy].
    apply hr_lift. eapply hw; [apply (var_mul_ha vx vy c2 I2); [eapply all_mono; eassumption|exact Hy]|].
    intros o c' _ _ [E H]. apply Ok_inj in Ev. subst v. rewrite E in H. auto.
  - eapply hr_bind; [apply (IHa _ _ HI La Ex)|]. intros vx c1 I1 X1 [<- Hx].
    eapply hr_bind; [apply (IHb _ _ I1 (mleaves_mono _ _ _ X1 Lb) Ey)|]. intros vy c2 I2 X2 [<- Hy].
    apply hr_lift. eapply hw; [apply (mulvar_add_ha vx vy c2 I2); [eapply all_mono; eassumption|exact Hy]|].
    intros o c' _ _ [E H]. apply Ok_inj in Ev. subst v. rewrite E in H. auto.
  - eapply hr_bind; [apply (IHa _ _ HI La Ex)|]. intros vx c1 I1 X1 [<- Hx].
    eapply hr_bind; [apply (sbuild_ha P b _ _ I1 (leaves_mono _ _ _ X1 Lb) Ey)|]. intros vy c2 I2 X2 [<- Hy].
    apply (mulvar_sub_ha P vx vy v c2 I2); [eapply all_mono; eassumption|exact Hy|exact Ev].
Qed.

(** ** Native computations *)
Section Native.
Context {L : Type} (f : L -> sim F) (g : L -> Z) (P : params) (K : facts P).
Let rep (v : L) : Prop := represents P (f v) (g v).
Lemma seval_represents e : sleaves rep e -> forall a, seval P f e = Ok a -> (additions (red a) <= CAP)%Z ->
  exists x, represents P a x /\ same_mod P x (smean g e).
Proof.
  pose proof (f_mod P K) as HM. induction e as [v|a IHa b IHb]; intros HL s Es HC; cbn [sleaves seval smean] in *.
  - apply Ok_inj in Es. subst s. exists (g v). split; [exact HL|apply same_refl].
  - destruct HL as [La Lb]. apply bind_ok in Es. destruct Es as (x & Ex & Es). apply bind_ok in Es. destruct Es as (y & Ey & Es).
    assert (Hr : match red y with Others _ => False | _ => True end /\ (additions (red x) <= CAP)%Z /\ (additions (red y) <= CAP)%Z).
    { unfold sim_sub in Es. destruct (red y); try discriminate; (destruct (_ <? _)%Z; [discriminate|]; apply Ok_inj in Es; subst s;
      cbn [red additions] in *; unfold CAP in *; repeat split; lia). }
    destruct Hr as (Hr & Cx & Cy). destruct (IHa La _ Ex Cx) as (zx & Rx & Mx). destruct (IHb Lb _ Ey Cy) as (zy & Ry & My).
    destruct (sub_represents F Hp P x y zx zy K Rx Ry Hr Cx) as (s' & E & R & _). rewrite Es in E. apply Ok_inj in E. subst s'.
    eexists. split; [exact R|]. apply same_sub; auto; [lia|apply (f_pmod P K)].
Qed.
Lemma seval_pos e : sleaves rep e -> forall a, seval P f e = Ok a -> (0 <= additions (red a))%Z.
Proof.
  induction e as [v|a IHa b IHb]; intros HL s Es; cbn [sleaves seval] in *.
  - apply Ok_inj in Es. subst s. destruct HL as (O & _). eapply additions_pos; exact O.
  - destruct HL as [La Lb]. apply bind_ok in Es. destruct Es as (x & Ex & Es). apply bind_ok in Es. destruct Es as (y & Ey & Es).
    specialize (IHa La _ Ex). unfold sim_sub in Es. destruct (red y); try discriminate; (destruct (_ <? _)%Z; [discriminate|]; apply Ok_inj in Es; subst s;
      cbn [red additions] in *; lia).
Qed.
Lemma meval_pos e : mleaves rep e -> forall m, meval P f e = Ok m -> (0 <= prod_additions m)%Z.
Proof.
  induction e as [a b|a IHa b IHb|a IHa b]; intros [La Lb] m Em; cbn [meval] in *;
    apply bind_ok in Em; destruct Em as (x & Ex & Em); apply bind_ok in Em; destruct Em as (y & Ey & Em).
  - apply Ok_inj in Em. subst m. cbn [sim_mul prod_additions]. pose proof (seval_pos a La _ Ex). pose proof (seval_pos b Lb _ Ey). nia.
  - apply Ok_inj in Em. subst m. cbn [simul_add prod_additions]. pose proof (IHa La _ Ex). pose proof (IHb Lb _ Ey). lia.
  - pose proof (IHa La _ Ex). unfold simul_sub in Em. destruct (4 <? _)%Z; [discriminate|]. destruct (_ <? _)%Z; [discriminate|].
    apply Ok_inj in Em. subst m. cbn [prod_additions]. lia.
Qed.
Lemma meval_represents e : mleaves rep e -> forall m, meval P f e = Ok m -> (prod_additions m <= CAP)%Z ->
  exists x, mrepresents P m x /\ same_mod P x (mmean g e).
Proof.
  pose proof (f_mod P K) as HM. induction e as [a b|a IHa b IHb|a IHa b]; intros [La Lb] m Em HC; cbn [meval mmean] in *;
    apply bind_ok in Em; destruct Em as (x & Ex & Em); apply bind_ok in Em; destruct Em as (y & Ey & Em).
  - apply Ok_inj in Em. subst m. pose proof (seval_pos a La _ Ex). pose proof (seval_pos b Lb _ Ey). pose proof HC as HC'. cbn [sim_mul prod_additions] in HC'.
    destruct (seval_represents a La _ Ex) as (zx & Rx & Mx); [nia|]. destruct (seval_represents b Lb _ Ey) as (zy & Ry & My); [nia|].
    exists (zx * zy)%Z. split; [now apply (mul_represents F Hp)|]. apply same_mul; auto; lia.
  - apply Ok_inj in Em. subst m. pose proof (meval_pos a La _ Ex). pose proof (meval_pos b Lb _ Ey). pose proof HC as HC'. cbn [simul_add prod_additions] in HC'.
    destruct (IHa La _ Ex) as (zx & Rx & Mx); [lia|]. destruct (IHb Lb _ Ey) as (zy & Ry & My); [lia|].
    exists (zx + zy)%Z. split; [now apply (add_represents F Hp)|]. apply same_add; auto; lia.
  - assert (Hr : (additions (red y) <= 4)%Z /\ prod_additions m = (prod_additions x + 12)%Z).
    { unfold simul_sub in Em. destruct (Z.ltb_spec 4 (additions (red y))); [discriminate|]. destruct (_ <? _)%Z; [discriminate|].
      apply Ok_inj in Em. subst m. cbn [prod_additions]. split; [lia|reflexivity]. }
    destruct Hr as [Hr Ep]. destruct (IHa La _ Ex) as (zx & Rx & Mx); [lia|]. destruct (seval_represents b Lb _ Ey) as (zy & Ry & My); [unfold CAP; lia|].
    destruct (msub_represents F Hp P x y zx zy K Rx Ry Hr) as (m' & E & R & _); [lia|]. rewrite Em in E. apply Ok_inj in E. subst m'.
    eexists. split; [exact R|]. apply same_sub; auto; [lia|]. pose proof (f_pmod P K) as HQ.
    apply Z.mod_divide in HQ; [|lia]. apply Z.mod_divide; [lia|]. now apply Z.divide_mul_r.
Qed.
End Native.
Lemma same_zero P x y : (0 < modulus P)%Z -> same_mod P x y -> (x mod modulus P = 0 <-> y mod modulus P = 0)%Z.
Proof.
  intros HM S. unfold same_mod in S. rewrite !Z.mod_divide in * by lia. split; intros H.
  - replace y with (x - (x - y))%Z by ring. now apply Z.divide_sub_r.
  - replace x with (y + (x - y))%Z by ring. now apply Z.divide_add_r.
Qed.
Theorem meval_zero {L} (f : L -> sim F) (g : L -> Z) P e m : facts P -> mleaves (fun v => represents P (f v) (g v)) e ->
  meval P f e = Ok m ->
  (enforce_zero P m = Ok tt <-> (prod_additions m < 32 /\ mmean g e mod modulus P = 0)%Z).
Proof.
  intros K HL Em. pose proof (f_mod P K) as HM. destruct (Z.lt_ge_cases (prod_additions m) 32) as [H|H].
  - destruct (meval_represents f g P K e HL m Em) as (x & R & S); [unfold CAP; lia|].
    rewrite (enforce_zero_represents F Hp P m x K R). pose proof (same_zero P _ _ ltac:(lia) S) as E.
    destruct (Z.ltb_spec (prod_additions m) 32); [|lia]. cbn [andb]. destruct (Z.eqb_spec (x mod modulus P) 0); split; intros G; try discriminate; tauto.
  - unfold enforce_zero. destruct (Z.leb_spec 32 (prod_additions m)); [|lia]. split; [discriminate|lia].
Qed.
Theorem zero_circuit_ha P e g m c : facts P -> Inv c -> mleaves (fun v => honest_leaf c v /\ represents P (sv v) (g v)) e ->
  meval P (@sv F) e = Ok m -> (prod_additions m < 32)%Z -> (mmean g e mod modulus P = 0)%Z ->
  har F (zero_circuit P e) c (fun _ _ => True).
Proof.
  intros K HI HL Em Hn Hz. pose proof (f_mod P K) as HM.
  assert (HA : mleaves (honest_leaf c) e /\ mleaves (fun v => represents P (sv v) (g v)) e).
  { assert (HS : forall s, sleaves (fun v => honest_leaf c v /\ represents P (sv v) (g v)) s -> sleaves (honest_leaf c) s /\ sleaves (fun v => represents P (sv v) (g v)) s).
    { induction s as [v|a IHa b IHb]; cbn [sleaves]; [auto|]. intros [H1 H2]. destruct (IHa H1), (IHb H2). auto. }
    clear - HL HS. induction e as [a b|a IHa b IHb|a IHa b]; cbn [mleaves] in *; destruct HL as [H1 H2]; auto.
    - destruct (HS _ H1), (HS _ H2). auto.
    - destruct (IHa H1), (IHb H2). auto.
    - destruct (IHa H1), (HS _ H2). auto. }
  destruct HA as [HA HB]. destruct (meval_represents (@sv F) g P K e HB m Em) as (x & R & S); [unfold CAP; lia|].
  unfold zero_circuit. eapply hr_bind; [apply (mbuild_ha P e m c HI HA Em)|]. intros v c1 I1 X1 [E Hv].
  subst m. apply (var_enforce_zero_ha P v x c1 K I1 Hv R Hn). apply (same_zero P x (mmean g e)); auto. lia.
Qed.
End Honest.
