(** The simulated zero check under assignments that do not put zero in variable 0. *)
From Coq Require Import List ZArith Bool Lia ZifyBool ZifyNat Field.
From Verif Require Import Base Field PField TurboModel TurboSpec TurboProofs TurboHonest TurboKit RescueModel RescueProofs
  SimModel SimSpec SimProofs SimZero SimCircuit SimHonest SimAlloc.
Import ListNotations.
Local Open Scope Z_scope.

Section Forge.
Context (F : PField) (Hp : 2 ^ 254 <= pchar F).
Add Field Fsimf : (f_th F).
Local Open Scope F_scope.
Notation P := ristretto.
Notation allw c w := (Forall2 (hasw F c w)).

Lemma allw_mono (c c' : tcs F) w w' vs xs : agree F (nvars c) w w' -> (nvars c <= nvars c')%nat -> allw c w vs xs -> allw c' w' vs xs.
Proof. intros A N. apply Forall2_impl. intros v x. now apply hasw_mono. Qed.
Lemma allw_nth (c : tcs F) w vs xs i : allw c w vs xs -> (i < length xs)%nat -> hasw F c w (nth i vs 0%nat) (nth i xs 0).
Proof. intros H. revert i. induction H as [|v x vs xs H _ IH]; intros [|i] L; cbn in *; try lia; auto. apply IH; lia. Qed.

Lemma adv_news vs : forall xs c w, length vs = length xs -> wf F c -> sat c w ->
  adv F (new_variables F vs) c w (fun o c' w' => allw c' w' o xs).
Proof.
  induction vs as [|v vs IH]; intros [|x xs] c w L HW HS; try discriminate; cbn [new_variables].
  - apply ar; auto.
  - eapply ab; [apply (adv_new F v c w x); assumption|]. intros o c1 w1 A1 N1 W1 S1 H1.
    eapply ab; [apply (IH xs); auto|]. intros l c2 w2 A2 N2 W2 S2 H2. apply ar; auto. constructor; [|exact H2].
    eapply hasw_mono; eassumption.
Qed.
Lemma adv_lc c w a b (d e : nat) k1 k2 k3 k4 xa xb xd xe : wf F c -> sat c w ->
  hasw F c w a xa -> hasw F c w b xb -> hasw F c w d xd -> hasw F c w e xe ->
  adv F (linear_combine F a b d e k1 k2 k3 k4) c w (fun o c' w' => hasw F c' w' o (k1 * xa + k2 * xb + k3 * xd + k4 * xe)).
Proof.
  intros HW HS [A1 A2] [B1 B2] [D1 D2] [E1 E2].
  apply (adv_out F (fun s => _) (fun o => lc_row F a b d e o k1 k2 k3 k4)); try assumption.
  intros c' w' o Ha Hn [O1 O2]. split; [split; [cbn; lia|exact I]|]. split; [|now apply nobool].
  apply lc_row_eq. now rewrite O2, !Ha, A2, B2, D2, E2 by lia.
Qed.
(** Three bits at a time, with the boolean constraint. *)
Lemma adv_lc_bool c w a b (d e : nat) k1 k2 k3 k4 xa xb xd xe : wf F c -> sat c w ->
  hasw F c w a xa -> hasw F c w b xb -> hasw F c w d xd -> hasw F c w e xe -> boolean xb -> boolean xd -> boolean xe ->
  adv F (bnd (linear_combine F a b d e k1 k2 k3 k4) (fun o => bnd (attach_boolean F) (fun _ => ret o))) c w
    (fun o c' w' => hasw F c' w' o (k1 * xa + k2 * xb + k3 * xd + k4 * xe)).
Proof.
  intros HW HS [A1 A2] [B1 B2] [D1 D2] [E1 E2] Bb Bd Be.
  assert (G := adv_out F (fun s => val s a * k1 + val s b * k2 + val s d * k3 + val s e * k4)
    (fun o => mark F (lc_row F a b d e o k1 k2 k3 k4)) c w (k1 * xa + k2 * xb + k3 * xd + k4 * xe) HW HS).
  apply G. intros c' w' o Ha Hn [O1 O2]. split; [split; [cbn; lia|exact I]|]. split.
  - change (gate_eq w' (lc_row F a b d e o k1 k2 k3 k4)). apply lc_row_eq. now rewrite O2, !Ha, A2, B2, D2, E2 by lia.
  - intros _. cbn. now rewrite !Ha, B2, D2, E2 by lia.
Qed.
Lemma adv_lc_gate_bool c w a b (d e o : nat) k1 k2 k3 k4 xa xb xd xe x : wf F c -> sat c w ->
  hasw F c w a xa -> hasw F c w b xb -> hasw F c w d xd -> hasw F c w e xe -> hasw F c w o x -> boolean xb -> boolean xd -> boolean xe ->
  x = k1 * xa + k2 * xb + k3 * xd + k4 * xe ->
  adv F (bnd (insert_lc_gate F a b d e o k1 k2 k3 k4) (fun _ => attach_boolean F)) c w (fun _ _ _ => True).
Proof.
  intros HW HS [A1 A2] [B1 B2] [D1 D2] [E1 E2] [O1 O2] Bb Bd Be Ex.
  assert (G := adv_push F (mark F (lc_row F a b d e o k1 k2 k3 k4)) c w HW HS).
  apply G.
  - split; [cbn; lia|exact I].
  - change (gate_eq w (lc_row F a b d e o k1 k2 k3 k4)). apply lc_row_eq. now rewrite O2, A2, B2, D2, E2.
  - intros _. cbn. now rewrite B2, D2, E2.
Qed.
Lemma adv_range_loop m : forall acc a top vs c w, wf F c -> sat c w -> Forall boolean vs -> (3 * m <= length vs)%nat ->
  hasw F c w acc a -> allw c w top vs ->
  adv F (range_loop F m acc top) c w (fun r c' w' => hasw F c' w' (fst r) (hornerF F a (firstn (3 * m) vs)) /\ allw c' w' (snd r) (skipn (3 * m) vs)).
Proof.
  induction m as [|m IH]; intros acc a top vs c w HW HS HB Hl Ha Ht.
  - assert (E : range_loop F 0 acc top = ret (acc, top)) by (destruct top; reflexivity). rewrite E. apply ar; auto.
  - destruct vs as [|x [|y [|z vs]]]; cbn [length] in Hl; try lia.
    inversion Ht as [|tx ? top1 ? Hx Ht1]; subst. inversion Ht1 as [|ty ? top2 ? Hy Ht2]; subst. inversion Ht2 as [|tz ? top3 ? Hz Ht3]; subst.
    inversion HB as [|? ? Bx HB1]; subst. inversion HB1 as [|? ? By HB2]; subst. inversion HB2 as [|? ? Bz HB3]; subst.
    cbn [range_loop].
    change (adv F (bnd (bnd (linear_combine F acc tx ty tz (fofZ 8) (fofZ 4) (fofZ 2) (fofZ 1))
         (fun o => bnd (attach_boolean F) (fun _ => ret o))) (fun o => range_loop F m o top3)) c w
      (fun r c' w' => hasw F c' w' (fst r) (hornerF F a (firstn (3 * S m) (x :: y :: z :: vs))) /\ allw c' w' (snd r) (skipn (3 * S m) (x :: y :: z :: vs)))).
    eapply ab; [apply (adv_lc_bool c w acc tx ty tz _ _ _ _ a x y z); assumption|]. intros o c1 w1 A1 N1 W1 S1 H1.
    eapply aw; [apply (IH o (fofZ 8 * a + fofZ 4 * x + fofZ 2 * y + fofZ 1 * z) top3 vs); auto; [lia|eapply allw_mono; eassumption]|].
    intros r c2 w2 _ _ H. replace (3 * S m)%nat with (3 + 3 * m)%nat by lia. cbn [firstn skipn Nat.add].
    replace (hornerF F a (x :: y :: z :: firstn (3 * m) vs)) with (hornerF F (fofZ 8 * a + fofZ 4 * x + fofZ 2 * y + fofZ 1 * z) (firstn (3 * m) vs)); [exact H|].
    unfold hornerF. cbn [fold_left]. f_equal. rewrite f8, f4, f2, fone. ring.
Qed.
(** A range check of [3 k + 4] bits never mentions variable 0. *)
Lemma adv_range v k x c w : wf F c -> sat c w -> hasw F c w v x -> (toZ x < 2 ^ Z.of_nat (3 * k + 4))%Z ->
  adv F (range_check F v (3 * k + 4)) c w (fun _ _ _ => True).
Proof.
  intros HW HS Hv Hx. set (n := (3 * k + 4)%nat) in *. assert (En : n = (3 * k + 4)%nat) by reflexivity. clearbody n. rewrite range_check_body.
  set (vs := map (bit F (toZ x)) (seq 0 n)).
  assert (Lv : length vs = n) by (unfold vs; now rewrite map_length, seq_length).
  assert (HB : Forall boolean (rev vs)).
  { apply Forall_rev. apply Forall_forall. intros y Hy. apply in_map_iff in Hy. destruct Hy as [i [<- _]]. apply bit_boolean. }
  assert (Hsum : hornerF F 0 (rev vs) = x).
  { rewrite hornerF_fbits. unfold vs. rewrite fbitsF_bits, Z.shiftr_0_r, Z.mod_small by (pose proof (toZ_range F x); lia). apply fofZ_toZ. }
  assert (E : forall (us : list F), length us = n -> adv F (bnd (new_variables F us) (range_body F v n)) c w (fun _ _ _ => True)).
  2:{ apply (E (map (bit F (toZ (val c v))) (seq 0 n))). now rewrite map_length, seq_length. }
  intros us Lu. eapply ab; [apply (adv_news us vs); auto; lia|]. intros b c1 w1 A1 N1 W1 S1 Hb.
  apply Forall2_rev' in Hb. unfold range_body. destruct (rev vs) as [|xt xs] eqn:Ev.
  { apply (f_equal (@length F)) in Ev. rewrite rev_length in Ev. cbn in Ev. lia. }
  assert (Lx : length xs = (3 * k + 3)%nat).
  { apply (f_equal (@length F)) in Ev. rewrite rev_length in Ev. cbn in Ev. lia. }
  inversion Hb as [|top ? rest ? Ht Hr Q1]. subst.
  inversion HB as [|? ? Bt Bxs]; subst.
  eapply ab.
  { unfold insert_boolean_gate. apply (adv_mul_gate F c1 w1 top top top xt xt xt); auto; [destruct Ht; lia|]. destruct Bt as [-> | ->]; ring. }
  intros _ c2 w2 A2 N2 W2 S2 _.
  replace ((3 * k + 4 - 2) / 3)%nat with k by (replace (3 * k + 4 - 2)%nat with (k * 3 + 2)%nat by lia; rewrite Nat.div_add_l by lia; cbn; lia).
  eapply ab; [apply (adv_range_loop k top xt rest xs); auto; [lia|eapply hasw_mono; eassumption|eapply allw_mono; eassumption]|].
  intros r c3 w3 A3 N3 W3 S3 [H1 H2].
  assert (Lr : length (skipn (3 * k) xs) = 3%nat) by (rewrite skipn_length; lia).
  assert (Hx2 : hornerF F 0 (xt :: xs) = hornerF F (hornerF F xt (firstn (3 * k) xs)) (skipn (3 * k) xs)).
  { unfold hornerF at 1. cbn [fold_left]. fold (hornerF F (0 + 0 + xt) xs). unfold hornerF. rewrite <- fold_left_app, firstn_skipn. f_equal. ring. }
  set (aa := hornerF F xt (firstn (3 * k) xs)) in *.
  assert (Brem : Forall boolean (skipn (3 * k) xs)).
  { rewrite <- (firstn_skipn (3 * k) xs) in Bxs. apply Forall_app in Bxs. apply Bxs. }
  destruct (skipn (3 * k) xs) as [|y1 [|y2 [|y3 [|]]]]; try discriminate.
  destruct r as [rf rs]. cbn [fst snd] in *.
  inversion H2 as [|s1 ? l1 ? K1 H3]; subst. inversion H3 as [|s2 ? l2 ? K2 H4]; subst. inversion H4 as [|s3 ? l3 ? K3 H5]; subst. inversion H5; subst.
  inversion Brem as [|? ? B1 Br1]; subst. inversion Br1 as [|? ? B2 Br2]; subst. inversion Br2 as [|? ? B3 _]; subst.
  assert (Hv3 : hasw F c3 w3 v (hornerF F 0 (xt :: xs))).
  { eapply hasw_mono; [exact A3|exact N3|]. eapply hasw_mono; [exact A2|exact N2|]. eapply hasw_mono; [exact A1|exact N1|]. exact Hv. }
  change (adv F (bnd (bnd (insert_lc_gate F rf s1 s2 s3 v (fofZ 8) (fofZ 4) (fofZ 2) (fofZ 1)) (fun _ => attach_boolean F)) (fun _ => ret b)) c3 w3 (fun _ _ _ => True)).
  eapply ab; [apply (adv_lc_gate_bool c3 w3 rf s1 s2 s3 v _ _ _ _ aa y1 y2 y3 (hornerF F 0 (xt :: xs))); auto|].
  { rewrite Hx2. unfold hornerF. cbn [fold_left]. rewrite f8, f4, f2, fone. ring. }
  intros _ c4 w4 _ _ W4 S4 _. now apply ar.
Qed.
Lemma adv_mapM {A B} (f : A -> CS F B) (R : tcs F -> (nat -> F) -> B -> F -> Prop) (g : A -> F) l : 
  (forall c c' w w' b x, agree F (nvars c) w w' -> (nvars c <= nvars c')%nat -> R c w b x -> R c' w' b x) -> forall c w, wf F c -> sat c w ->
  (forall a c' w', In a l -> agree F (nvars c) w w' -> (nvars c <= nvars c')%nat -> wf F c' -> sat c' w' -> adv F (f a) c' w' (fun o c'' w'' => R c'' w'' o (g a))) ->
  adv F (RescueModel.mapM F f l) c w (fun os c' w' => Forall2 (R c' w') os (map g l)).
Proof.
  intros HR. induction l as [|a l IH]; intros c w HW HS H; cbn [RescueModel.mapM map].
  - apply ar; auto.
  - eapply ab; [apply H; auto; [now left|intros i _; reflexivity]|]. intros b c1 w1 A1 N1 W1 S1 H1.
    eapply ab.
    { apply IH; auto. intros a' c' w' Hin A' N' W' S'. apply H; auto; [now right| |lia]. intros i Hi. rewrite A' by lia. now apply A1. }
    intros r c2 w2 A2 N2 W2 S2 H2. apply ar; auto. constructor; [|exact H2]. eapply HR; eassumption.
Qed.
Lemma hasw_R (c c' : tcs F) w w' b x : agree F (nvars c) w w' -> (nvars c <= nvars c')%nat -> hasw F c w b x -> hasw F c' w' b x.
Proof. intros A N. now apply hasw_mono. Qed.
Lemma adv_mac_loop (a b : simvar F) xa xb i ls : forall prior x y c w, wf F c -> sat c w -> (0 < nvars c)%nat ->
  allw c w (svar a) xa -> allw c w (svar b) xb -> hasw F c w prior x ->
  Forall (fun l => l < length xa /\ i - l < length xb)%nat ls ->
  adv F (mac_loop F a b i ls prior y) c w (fun o c' w' =>
    hasw F c' w' o (fold_left (fun acc l => acc + nth l xa 0 * nth (i - l) xb 0) ls x)).
Proof.
  induction ls as [|l ls IH]; intros prior x y c w HW HS H0 Ha Hb Hx HL; cbn [mac_loop fold_left].
  - apply ar; auto.
  - cbn zeta. inversion HL as [|? ? [L1 L2] HL']; subst.
    eapply ab; [apply (adv_new F _ c w (x + nth l xa 0 * nth (i - l) xb 0)); assumption|]. intros o c1 w1 A1 N1 W1 S1 H1.
    pose proof (hasw_R _ _ _ _ _ _ A1 N1 (allw_nth _ _ _ _ l Ha L1)) as [X1 X2].
    pose proof (hasw_R _ _ _ _ _ _ A1 N1 (allw_nth _ _ _ _ (i - l) Hb L2)) as [Y1 Y2].
    pose proof (hasw_R _ _ _ _ _ _ A1 N1 Hx) as [Z1 Z2]. pose proof H1 as [O1 O2].
    eapply ab.
    { apply (adv_push F (mac_row F prior (nth l (svar a) 0%nat) (nth (i - l) (svar b) 0%nat) o)); auto; [split; [cbn; unfold zero_var; lia|exact I]| |now apply nobool].
      apply mac_row_eq. now rewrite X2, Y2, Z2, O2. }
    intros _ c2 w2 A2 N2 W2 S2 _. apply IH; auto; [lia| | |].
    + eapply allw_mono; [exact A2|exact N2|]. eapply allw_mono; eassumption.
    + eapply allw_mono; [exact A2|exact N2|]. eapply allw_mono; eassumption.
    + eapply hasw_R; eassumption.
Qed.
Lemma adv_rk_loop rl ks kl i n z : forall ls, (length ls <= n)%nat -> forall acc x c w, wf F c -> sat c w -> allw c w ks kl ->
  hasw F c w 0 z -> hasw F c w acc x -> Forall (fun l => i - l < length kl)%nat ls ->
  adv F (rk_loop F rl ks i ls acc) c w (fun o c' w' =>
    hasw F c' w' o (fold_left (fun acc l => acc + nth l rl 0 * nth (i - l) kl 0) ls x)).
Proof.
  induction n as [|n IH]; intros ls Hn acc x c w HW HS Hk H0 Hx HL.
  { destruct ls; [|cbn in Hn; lia]. cbn [rk_loop]. now apply ar. }
  destruct ls as [|a [|b [|d ls]]]; cbn [rk_loop].
  - now apply ar.
  - inversion HL as [|? ? La _]; subst.
    eapply aw; [apply adv_lc; [exact HW|exact HS|exact Hx|apply (allw_nth c w ks kl); auto|exact H0|exact H0]|]. intros o c' w' _ _ H.
    cbv beta in H |- *. cbn [fold_left]. match type of H with hasw _ _ _ _ ?v => match goal with |- hasw _ _ _ _ ?u => replace u with v by ring end end. exact H.
  - inversion HL as [|? ? La HL1]; subst. inversion HL1 as [|? ? Lb _]; subst.
    eapply aw; [apply adv_lc; [exact HW|exact HS|exact Hx|apply (allw_nth c w ks kl); auto|apply (allw_nth c w ks kl); auto|exact H0]|]. intros o c' w' _ _ H.
    cbv beta in H |- *. cbn [fold_left]. match type of H with hasw _ _ _ _ ?v => match goal with |- hasw _ _ _ _ ?u => replace u with v by ring end end. exact H.
  - inversion HL as [|? ? La HL1]; subst. inversion HL1 as [|? ? Lb HL2]; subst. inversion HL2 as [|? ? Ld HL3]; subst.
    eapply ab; [apply adv_lc; [exact HW|exact HS|exact Hx|apply (allw_nth c w ks kl); auto|apply (allw_nth c w ks kl); auto|apply (allw_nth c w ks kl); auto]|].
    intros o c1 w1 A1 N1 W1 S1 H. cbn [fold_left]. apply IH; auto; [cbn in Hn; lia|eapply allw_mono; eassumption|eapply hasw_R; eassumption|].
    cbv beta in H |- *. match type of H with hasw _ _ _ _ ?v => match goal with |- hasw _ _ _ _ ?u => replace u with v by ring end end. exact H.
Qed.

Lemma pow_lt_p n : (n <= 253)%nat -> (2 ^ Z.of_nat n < pchar F)%Z.
Proof. intros H. eapply Z.lt_le_trans; [|exact Hp]. apply Z.pow_lt_mono_r; lia. Qed.
Definition gp (s : F) : list F -> list F -> list (F * F) := fix gp l r :=
  match l, r with
  | [a], [a'] => [(a, a')]
  | a :: b :: l', a' :: b' :: r' => (a + s * b, a' + s * b') :: gp l' r'
  | _, _ => []
  end.
Definition has2 (c : tcs F) w (v : nat * nat) (x : F * F) : Prop := hasw F c w (fst v) (fst x) /\ hasw F c w (snd v) (snd x).
Lemma has2_mono (c c' : tcs F) w w' v x : agree F (nvars c) w w' -> (nvars c <= nvars c')%nat -> has2 c w v x -> has2 c' w' v x.
Proof. intros A N [H1 H2]. split; eapply hasw_R; eassumption. Qed.
Lemma adv_group_var a b c w x y z : wf F c -> sat c w -> hasw F c w 0 z -> hasw F c w a x -> hasw F c w b y ->
  adv F (group_var F P a b) c w (fun o c' w' => hasw F c' w' o (x + fofZ (step P) * y)).
Proof.
  intros HW HS H0 Hx Hy. unfold group_var.
  eapply aw; [apply adv_lc; [exact HW|exact HS|exact Hx|exact H0|exact Hy|exact H0]|]. intros o c' w' _ _ H.
  cbv beta in H |- *. match type of H with hasw _ _ _ _ ?v => match goal with |- hasw _ _ _ _ ?u => replace u with v by ring end end. exact H.
Qed.
Lemma adv_groups n z : forall l r xl xr c w, (length xl <= n)%nat -> length xl = length xr -> wf F c -> sat c w -> hasw F c w 0 z ->
  allw c w l xl -> allw c w r xr -> adv F (group_vars F P l r) c w (fun os c' w' => Forall2 (has2 c' w') os (gp (fofZ (step P)) xl xr)).
Proof.
  induction n as [|n IH]; intros l r xl xr c w Hn E HW HS H0 Hl Hr.
  { destruct xl; [|cbn in Hn; lia]. destruct xr; [|discriminate]. inversion Hl; inversion Hr; subst. cbn. now apply ar. }
  destruct xl as [|x [|x2 xl]]; destruct xr as [|y [|y2 xr]]; try discriminate.
  - inversion Hl; inversion Hr; subst. cbn. now apply ar.
  - inversion Hl as [|a ? ? ? Ha Hl1]; inversion Hr as [|b ? ? ? Hb Hr1]; subst. inversion Hl1; inversion Hr1; subst. cbn [group_vars gp].
    apply ar; auto. constructor; [split; assumption|constructor].
  - inversion Hl as [|a ? ? ? Ha Hl1]; inversion Hr as [|b ? ? ? Hb Hr1]; subst.
    inversion Hl1 as [|a2 ? l' ? Ha2 Hl2]; inversion Hr1 as [|b2 ? r' ? Hb2 Hr2]; subst. cbn [group_vars gp].
    eapply ab; [apply (adv_group_var a a2 c w x x2 z); assumption|]. intros o c1 w1 A1 N1 W1 S1 H1.
    eapply ab; [apply (adv_group_var b b2 c1 w1 y y2 z); auto; eapply hasw_R; eassumption|]. intros o' c2 w2 A2 N2 W2 S2 H2.
    assert (A : agree F (nvars c) w w2) by (intros i Hi; rewrite A2 by lia; now apply A1).
    assert (N : (nvars c <= nvars c2)%nat) by lia.
    eapply ab; [apply (IH l' r' xl xr); auto; [cbn in Hn; lia|cbn in E; lia|eapply hasw_R; eassumption|eapply allw_mono; eassumption|eapply allw_mono; eassumption]|].
    intros os c3 w3 A3 N3 W3 S3 H3. apply ar; auto. constructor; [|exact H3]. split; cbn [fst snd].
    + exact (hasw_R _ _ _ _ _ _ A3 N3 (hasw_R _ _ _ _ _ _ A2 N2 H1)).
    + exact (hasw_R _ _ _ _ _ _ A3 N3 H2).
Qed.
(** The chain of carries goes through whenever the first difference is made up by
    the incoming carry, whatever the recorded values. *)
Lemma pad_2 : pad P 2 = (2 ^ 136)%Z. Proof. reflexivity. Qed.
Lemma pad_1 : pad P 1 = (2 ^ 92)%Z. Proof. reflexivity. Qed.
Lemma shift_2 : shift P 2 = (2 ^ 86)%Z. Proof. reflexivity. Qed.
Lemma carry_width : (surfeit + BIT_PER_LIMB P * 2 = 3 * 29 + 4)%nat. Proof. reflexivity. Qed.
Lemma toZ_pad n : (n <= 2)%nat -> toZ (fofZ (F := F) (pad P n)) = pad P n.
Proof.
  intros H. apply toZ_small. unfold pad. split; [apply Z.pow_nonneg; lia|]. apply pow_lt_p.
  replace (BIT_PER_LIMB P) with 43%nat by reflexivity. unfold surfeit. lia.
Qed.
Lemma carry_step (xl xr xc : F) (a : Z) (p s : Z) : s <> 0%Z -> xl - xr + xc = fofZ a ->
  xl + xc - (- fofZ p + fofZ ((a + p) mod s)) = xr + fofZ s * fofZ ((a + p) / s).
Proof.
  intros Hs H. assert (E : (a + p = s * ((a + p) / s) + (a + p) mod s)%Z) by (apply Z.div_mod; exact Hs).
  apply (f_equal (fun t => fofZ (F := F) t)) in E. rewrite fofZ_add, fofZ_add, fofZ_mul in E.
  assert (E2 : xl + xc = fofZ a + xr) by (rewrite <- H; ring). rewrite E2.
  match goal with |- ?u = ?v => transitivity ((fofZ a + fofZ p) + xr - fofZ ((a + p) mod s)); [ring|] end. rewrite E. ring.
Qed.
Lemma adv_carry k : forall gs vs xs v xl xr cv xc ci (a : Z) c w, map snd gs = repeat 2%nat k ++ [1%nat] ->
  wf F c -> sat c w -> (0 < nvars c)%nat -> has2 c w v (xl, xr) -> hasw F c w cv xc -> xl - xr + xc = fofZ a -> (0 <= a <= 2 ^ 51)%Z ->
  Forall2 (has2 c w) vs xs -> length xs = k -> Forall (fun x => fst x = snd x) xs ->
  adv F (carry_loop F P (combine gs (v :: vs)) ci cv a) c w (fun _ _ _ => True).
Proof.
  induction k as [|k IH]; intros gs vs xs v xl xr cv xc ci a c w Eg HW HS H0 [Hl Hr] Hc Ed Ba Hvs Lx Ex; cbn [fst snd] in *.
  - destruct gs as [|[[lg rg] n] [|]]; try discriminate. cbn in Eg. injection Eg as ->.
    destruct xs; [|discriminate]. inversion Hvs; subst. destruct v as [lv rv]. cbn [combine carry_loop fst snd] in *. cbn zeta. rewrite toZ_pad by lia.
    eapply ab; [apply (adv_new F _ c w (fofZ ((a + pad P 1) / shift P 1))); assumption|]. intros o c1 w1 A1 N1 W1 S1 H1.
    pose proof (hasw_R _ _ _ _ _ _ A1 N1 Hl) as [L1 L2]. pose proof (hasw_R _ _ _ _ _ _ A1 N1 Hr) as [R1 R2].
    pose proof (hasw_R _ _ _ _ _ _ A1 N1 Hc) as [C1 C2]. pose proof H1 as [O1 O2].
    eapply ab.
    { apply (adv_push F (carry_row F (- fofZ (pad P 1) + fofZ ((a + pad P 1) mod shift P 1)) (fofZ (shift P 1)) lv cv rv o)); auto; [split; [cbn; unfold zero_var; lia|exact I]| |now apply nobool].
      apply carry_row_eq. rewrite L2, R2, C2, O2. apply carry_step; [discriminate|exact Ed]. }
    intros _ c2 w2 A2 N2 W2 S2 _.
    eapply ab; [apply adv_const_gate; auto; eapply hasw_R; eassumption|]. intros _ c3 w3 _ _ W3 S3 _. now apply ar.
  - destruct gs as [|[[lg rg] n] gs]; [discriminate|]. cbn in Eg. injection Eg as -> Eg.
    destruct xs as [|[y1 y2] xs]; [discriminate|]. inversion Hvs as [|v2 ? vs2 ? Hv2 Hvs2]; subst. inversion Ex as [|? ? Ey Ex2]; subst.
    destruct v as [lv rv]. cbn [fst snd] in *. subst y2.
    destruct gs as [|g2 gs]; [destruct k; discriminate|].
    cbn [combine carry_loop]. cbn zeta. rewrite toZ_pad by lia.
    set (e' := ((a + pad P 2) / shift P 2)%Z).
    assert (Be : (0 <= e' <= 2 ^ 51)%Z).
    { unfold e'. rewrite pad_2, shift_2. split; [apply Z.div_pos; lia|]. apply Z.div_le_upper_bound; lia. }
    eapply ab; [apply (adv_new F _ c w (fofZ e')); assumption|]. intros o c1 w1 A1 N1 W1 S1 H1.
    pose proof (hasw_R _ _ _ _ _ _ A1 N1 Hl) as [L1 L2]. pose proof (hasw_R _ _ _ _ _ _ A1 N1 Hr) as [R1 R2].
    pose proof (hasw_R _ _ _ _ _ _ A1 N1 Hc) as [C1 C2]. pose proof H1 as [O1 O2].
    eapply ab.
    { apply (adv_push F (carry_row F (- fofZ (pad P 2) + fofZ ((a + pad P 2) mod shift P 2)) (fofZ (shift P 2)) lv cv rv o)); auto; [split; [cbn; unfold zero_var; lia|exact I]| |now apply nobool].
      apply carry_row_eq. rewrite L2, R2, C2, O2. apply carry_step; [discriminate|exact Ed]. }
    intros _ c2 w2 A2 N2 W2 S2 _. pose proof (hasw_R _ _ _ _ _ _ A2 N2 H1) as H2.
    eapply ab.
    { destruct g2 as [gg nn]. cbv iota. rewrite carry_width.
      eapply ab; [apply (adv_range o 29 (fofZ e')); auto|].
      - rewrite toZ_small; [apply Z.le_lt_trans with (2 ^ 51)%Z; [lia|reflexivity]|]. split; [lia|]. apply Z.le_lt_trans with (2 ^ 51)%Z; [lia|]. apply (pow_lt_p 51). lia.
      - intros ? c3 w3 _ _ W3 S3 _. apply (ar F tt c3 w3 (fun _ _ _ => True)); auto. }
    intros _ c3 w3 A3 N3 W3 S3 _.
    assert (A : agree F (nvars c) w w3) by (intros i Hi; rewrite A3, A2 by lia; now apply A1).
    assert (N : (nvars c <= nvars c3)%nat) by lia.
    change (adv F (carry_loop F P (combine (g2 :: gs) (v2 :: vs2)) (carry_of F P lg rg ci 2) o e') c3 w3 (fun _ _ _ => True)).
    apply (IH (g2 :: gs) vs2 xs v2 y1 y1 o (fofZ e')); auto; [lia|exact (has2_mono _ _ _ _ _ _ A N Hv2)|exact (hasw_R _ _ _ _ _ _ A3 N3 H2)|ring| ].
    eapply Forall2_impl; [|exact Hvs2]. intros p q. now apply has2_mono.
Qed.

Lemma fold_zeros (rl : list F) i ls : forall x : F, fold_left (fun acc l => acc + nth l rl 0 * nth (i - l) (repeat 0 6) 0) ls x = x.
Proof. induction ls as [|l ls IH]; intros x; cbn [fold_left]; [reflexivity|]. rewrite IH, nth_repeat. ring. Qed.
Lemma rk_values (rl : list F) z l : map (fun i => fold_left (fun acc l => acc + nth l rl 0 * nth (i - l) (repeat 0 6) 0) (lefts i) z) l = map (fun _ => z) l.
Proof. apply map_ext. intros i. apply fold_zeros. Qed.
Lemma lefts_range i : (i < 11)%nat -> Forall (fun l => l < 6 /\ i - l < 6)%nat (lefts i).
Proof.
  intros H. apply Forall_forall. intros l Hl. unfold lefts, NUM_OF_LIMBS in Hl. apply in_seq in Hl. lia.
Qed.
Lemma mac_values (z : F) : map (fun i => fold_left (fun acc l => acc + nth l [1; 0; 0; 0; 0; 0] 0 * nth (i - l) [1; 0; 0; 0; 0; 0] 0) (lefts i) z) (seq 0 11)
  = (z + 1) :: repeat z 10.
Proof. cbn. repeat (apply f_equal2; [ring|]). reflexivity. Qed.
Lemma zip_shape (a b a' b' : list F) : map snd (zip_groups F P (convolve F a b) (convolve F a' b')) = repeat 2%nat 5 ++ [1%nat].
Proof. reflexivity. Qed.
Lemma kwidth_all i : (i < 6)%nat -> kwidth P i = (3 * 13 + 4)%nat.
Proof. intros H. do 6 (destruct i as [|i]; [reflexivity|]). lia. Qed.

(** With minus one in variable 0, the circuit that asks [a * a] to be zero accepts [a = 1]. *)
Lemma gates_forge (a : simvar F) x (l1 l2 l3 l4 : list F) c w : wf F c -> sat c w -> hasw F c w 0 (- (1)) -> allw c w (svar a) [1; 0; 0; 0; 0; 0] ->
  adv F (bnd (var_mul a a) (fun m => enforce_zero_gates F P m x (zip_groups F P (convolve F l1 l2) (convolve F l3 l4)))) c w (fun _ _ _ => True).
Proof.
  intros HW HS H0 Ha. unfold var_mul.
  eapply ab.
  { eapply ab.
    { apply (adv_mapM _ (hasw F) (fun i => fold_left (fun acc l => acc + nth l [1; 0; 0; 0; 0; 0] 0 * nth (i - l) [1; 0; 0; 0; 0; 0] 0) (lefts i) (- (1)))); [exact hasw_R|exact HW|exact HS|].
      intros i c' w' Hi A N W S. apply in_seq in Hi. unfold NUM_OF_LIMBS_MUL, NUM_OF_LIMBS in Hi.
      apply adv_mac_loop; auto; [destruct H0; lia|eapply allw_mono; eassumption|eapply allw_mono; eassumption|eapply hasw_R; eassumption|]. apply lefts_range. lia. }
    intros l c1 w1 A1 N1 W1 S1 H1. change NUM_OF_LIMBS_MUL with 11%nat in H1. rewrite mac_values in H1.
    apply (ar F (mkSimulvar (sim_mul (sv a) (sv a)) l) c1 w1 (fun m c' w' => allw c' w' (mvar m) ((- (1) + 1) :: repeat (- (1)) 10) /\ hasw F c' w' 0 (- (1)))); auto.
    split; [exact H1|exact (hasw_R _ _ _ _ _ _ A1 N1 H0)]. }
  intros m c0 w0 _ _ HW0 HS0 [Hm H00]. clear c w HW HS H0 Ha. rename c0 into c, w0 into w, HW0 into HW, HS0 into HS, H00 into H0. unfold enforce_zero_gates. cbn zeta.
  eapply ab.
  { apply (adv_mapM _ (hasw F) (fun _ => 0)); [exact hasw_R|exact HW|exact HS|]. intros i c' w' Hi A N W S. apply in_seq in Hi. unfold NUM_OF_LIMBS in Hi.
    eapply ab; [apply (adv_new F _ c' w' 0); assumption|]. intros o c1 w1 A1 N1 W1 S1 H1. rewrite kwidth_all by lia.
    eapply ab; [apply (adv_range o 13 0); auto; rewrite toZ_0; reflexivity|]. intros ? c2 w2 A2 N2 W2 S2 _. apply ar; auto. exact (hasw_R _ _ _ _ _ _ A2 N2 H1). }
  intros ks c1 w1 A1 N1 W1 S1 Hk. change (allw c1 w1 ks (repeat 0 6)) in Hk.
  pose proof (hasw_R _ _ _ _ _ _ A1 N1 H0) as H01. pose proof (allw_mono _ _ _ _ _ _ A1 N1 Hm) as Hm1.
  eapply ab.
  { apply (adv_mapM _ (hasw F) (fun i => fold_left (fun acc l => acc + nth l (map fofZ (modulus_limbs P)) 0 * nth (i - l) (repeat 0 6) 0) (lefts i) (- (1)))); [exact hasw_R|exact W1|exact S1|].
    intros i c' w' Hi A N W S. apply in_seq in Hi. unfold NUM_OF_LIMBS_MUL, NUM_OF_LIMBS in Hi.
    apply (adv_rk_loop _ ks (repeat 0 6) i _ (- (1)) _ (le_n _)); auto; [eapply allw_mono; eassumption|eapply hasw_R; eassumption|eapply hasw_R; eassumption|].
    eapply Forall_impl; [|apply lefts_range; lia]. intros l [_ H]. exact H. }
  intros rks c2 w2 A2 N2 W2 S2 Hr. rewrite rk_values in Hr. change (allw c2 w2 rks (repeat (- (1)) 11)) in Hr.
  pose proof (hasw_R _ _ _ _ _ _ A2 N2 H01) as H02. pose proof (allw_mono _ _ _ _ _ _ A2 N2 Hm1) as Hm2.
  eapply ab; [apply (adv_groups 11 (- (1)) (mvar m) rks ((- (1) + 1) :: repeat (- (1)) 10) (repeat (- (1)) 11)); auto|].
  intros vs c3 w3 A3 N3 W3 S3 Hv. pose proof (hasw_R _ _ _ _ _ _ A3 N3 H02) as H03.
  set (s := fofZ (F := F) (step P)) in Hv. clearbody s. cbn [repeat gp] in Hv. inversion Hv as [|v ? vs' ? Hv1 Hv2]; subst.
  eapply (adv_carry 5 _ vs' _ v _ _ 0 (- (1)) 0 0 c3 w3); [apply zip_shape|exact W3|exact S3|destruct H03; lia|exact Hv1|exact H03| |lia|exact Hv2|reflexivity|].
  - rewrite fofZ_0. ring.
  - repeat constructor.
Qed.

Lemma enforce_ok (Q : params) (m : simulvar F) c c' : var_enforce_zero Q m c = Ok (tt, c') ->
  exists x, c' = snd (enforce_zero_gates F Q m x (zip_groups F Q (mlimbs (mv m)) (convolve F (map fofZ (modulus_limbs Q)) (limbs (sim_from F Q (x / modulus Q))))) c).
Proof.
  unfold var_enforce_zero, rbnd, require, of_res, lift. destruct (_ <? _)%Z; [|discriminate].
  destruct (simul_into Q (mv m)) as [x| |]; cbn [rmap]; try discriminate. cbn zeta.
  destruct (forallb _ _); [|discriminate]. intros E. apply Ok_inj in E. exists x. now rewrite E.
Qed.
Definition w_forged (i : nat) : F := match i with O => - (1) | S (S O) => 1 | _ => 0 end.
Lemma input_facts : let '(a, c) := alloc_input (sim_from F P 0) (cs_new F) in
  svar a = seq 2 6 /\ sv a = sim_from F P 0 /\ grev c = [] /\ nvars c = 8%nat /\ wit c = [0; 1] ++ limbs (sim_from F P 0).
Proof. unfold alloc_input, sim_from, sv, svar. cbn [limbs digits NUM_OF_LIMBS]. repeat split. Qed.
Theorem forge : let '(a, c) := alloc_input (sim_from F P 0) (cs_new F) in
  exists c' w, zero_circuit P (Times (Leaf a) (Leaf a)) c = Ok (tt, c') /\ sat c' w /\
    w 0%nat = - (1) /\ wlimbs w (svar a) = [1; 0; 0; 0; 0; 0]%Z.
Proof.
  pose proof input_facts as IF. destruct (alloc_input (sim_from F P 0) (cs_new F)) as [a c] eqn:EA. destruct IF as (Ea & Ev & Eg & En & Ew).
  assert (K : facts P) by (apply valid_facts; now left).
  assert (R : represents P (sv a) 0) by (rewrite Ev; apply (from_represents F Hp P 0 K); split; [lia|reflexivity]).
  assert (HI : Inv c /\ Forall2 (has F c) (svar a) (limbs (sv a))).
  { assert (R0 : represents P (sim_from F P 0) (sval (sim_from F P 0))) by (rewrite <- Ev; rewrite Ev at 2; exact R). pose proof (alloc_input_ha F P (sim_from F P 0) (cs_new F) R0 (inv_new F)) as G. unfold ha in G. rewrite EA in G.
    destruct G as [G1 [_ [G2 _]]]. split; assumption. }
  destruct HI as [HI Hh].
  destruct (zero_circuit_ha F Hp P (Times (Leaf a) (Leaf a)) (fun _ => 0%Z) (sim_mul (sv a) (sv a)) c K HI) as ([] & c' & E & _); try exact (conj (conj Hh R) (conj Hh R)); [reflexivity|rewrite Ev; reflexivity|reflexivity|].
  assert (HW : wf F c) by (unfold wf; rewrite Eg; constructor).
  assert (HS : sat c w_forged) by (unfold sat; rewrite Eg; constructor).
  assert (H0 : hasw F c w_forged 0 (- (1))) by (split; [lia|reflexivity]).
  assert (Ha : allw c w_forged (svar a) [1; 0; 0; 0; 0; 0]).
  { rewrite Ea. cbn [seq]. repeat (constructor; [split; [lia|reflexivity]|]). constructor. }
  assert (E2 : var_enforce_zero P (fst (var_mul a a c)) (snd (var_mul a a c)) = Ok (tt, c')).
  { rewrite <- E. unfold zero_circuit. cbn [mbuild sbuild]. unfold rbnd at 1 2 3, rret, lift. now destruct (var_mul a a c). }
  assert (Em : mv (fst (var_mul a a c)) = sim_mul (sv a) (sv a)).
  { unfold var_mul, bnd. match goal with |- context [let '(_, _) := ?m c in _] => now destruct (m c) end. }
  destruct (enforce_ok P _ _ _ E2) as [x Ec]. rewrite Em in Ec.
  change (mlimbs (sim_mul (sv a) (sv a))) with (convolve F (limbs (sv a)) (limbs (sv a))) in Ec.
  destruct (gates_forge a x (limbs (sv a)) (limbs (sv a)) (map fofZ (modulus_limbs P)) (limbs (sim_from F P (x / modulus P))) c w_forged HW HS H0 Ha) as (w' & A & _ & _ & S & _).
  rewrite bnd_eq in S. exists c', w'. split; [exact E|]. split; [|split].
  - rewrite Ec. exact S.
  - rewrite A by lia. reflexivity.
  - unfold wlimbs. rewrite Ea. cbn [seq map]. rewrite !A by lia. cbn [w_forged]. now rewrite toZ_0, toZ_1.
Qed.
End Forge.
