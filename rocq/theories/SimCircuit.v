(** Simulated arithmetic in the circuit: soundness and honest runs. *)
From Coq Require Import List ZArith Bool Lia ZifyBool ZifyNat Field.
From Verif Require Import Base Field PField TurboModel TurboSpec TurboProofs TurboHonest TurboKit RescueModel RescueProofs
  SimModel SimSpec SimProofs SimZero.
Import ListNotations.
Local Open Scope Z_scope.

Section Circuit.
Context (F : PField) (Hp : 2 ^ 254 <= pchar F).
Add Field Fsimc : (f_th F).
Local Open Scope F_scope.
Implicit Types (w : nat -> F).

(** ** Gadgets that may panic *)
Definition rsound {A} (m : CR F A) (Q : (nat -> F) -> A -> Prop) : Prop :=
  forall c a c', m c = Ok (a, c') -> forall w, sat c' w -> sat c w /\ Q w a.
Lemma rs_lift {A} (m : CS F A) Q : sound m Q -> rsound (lift m) Q.
Proof. intros H c a c' E w S. unfold lift in E. apply Ok_inj in E. specialize (H c w). rewrite E in H. cbn in H. auto. Qed.
Lemma rs_bind {A B} (m : CR F A) (f : A -> CR F B) R (Q : (nat -> F) -> B -> Prop) :
  rsound m R -> (forall a, rsound (f a) (fun w b => R w a -> Q w b)) -> rsound (rbnd m f) Q.
Proof.
  intros Hm Hf c b c' E w S. unfold rbnd in E. destruct (m c) as [[a c1]| |] eqn:E1; try discriminate.
  destruct (Hf a c1 b c' E w S) as [S1 H1]. destruct (Hm c a c1 E1 w S1) as [S0 H0]. auto.
Qed.
Lemma rs_ret {A} (a : A) (Q : (nat -> F) -> A -> Prop) : (forall w, Q w a) -> rsound (rret a) Q.
Proof. intros H c b c' E w S. apply Ok_inj in E. injection E as <- <-. auto. Qed.
Lemma rs_res {A} (r : res A) : rsound (of_res r) (fun _ a => r = Ok a).
Proof. intros c a c' E w S. unfold of_res, rmap in E. destruct r; try discriminate. apply Ok_inj in E. injection E as <- <-. auto. Qed.
Lemma rs_require b : rsound (require b) (fun _ _ => b = true).
Proof. intros c a c' E w S. unfold require in E. destruct b; [|discriminate]. apply Ok_inj in E. injection E as <- <-. auto. Qed.
Lemma rs_weak {A} (m : CR F A) (R Q : (nat -> F) -> A -> Prop) : rsound m R -> (forall w a, R w a -> Q w a) -> rsound m Q.
Proof. intros H HR c a c' E w S. destruct (H c a c' E w S). auto. Qed.

Definition har {A} (m : CR F A) (c : tcs F) (Q : A -> tcs F -> Prop) : Prop :=
  exists a c', m c = Ok (a, c') /\ Inv c' /\ extends c c' /\ Q a c'.
Lemma hr_lift {A} (m : CS F A) c Q : ha F m c Q -> har (lift m) c Q.
Proof. intros (H1 & H2 & H3). exists (fst (m c)), (snd (m c)). unfold lift. rewrite <- surjective_pairing. auto. Qed.
Lemma hr_bind {A B} (m : CR F A) (f : A -> CR F B) c Q1 Q : har m c Q1 ->
  (forall a c', Inv c' -> extends c c' -> Q1 a c' -> har (f a) c' Q) -> har (rbnd m f) c Q.
Proof.
  intros (a & c1 & E & I1 & X1 & H1) Hf. destruct (Hf a c1 I1 X1 H1) as (b & c2 & E2 & I2 & X2 & H2).
  exists b, c2. unfold rbnd. rewrite E. split; [exact E2|]. split; [exact I2|]. split; [eapply extends_trans; eassumption|exact H2].
Qed.
Lemma hr_ret {A} (a : A) c (Q : A -> tcs F -> Prop) : Inv c -> Q a c -> har (rret a) c Q.
Proof. intros I1 H. exists a, c. split; [reflexivity|]. split; [exact I1|]. split; [apply extends_refl|exact H]. Qed.
Lemma hr_res {A} (r : res A) (a : A) c : Inv c -> r = Ok a -> har (of_res r) c (fun x _ => x = a).
Proof. intros I1 ->. exists a, c. split; [reflexivity|]. split; [exact I1|]. split; [apply extends_refl|reflexivity]. Qed.
Lemma hr_require b c : Inv c -> b = true -> har (require b) c (fun _ _ => True).
Proof. intros I1 ->. exists tt, c. split; [reflexivity|]. split; [exact I1|]. split; [apply extends_refl|exact I]. Qed.
Lemma hr_weak {A} (m : CR F A) c (Q Q' : A -> tcs F -> Prop) : har m c Q ->
  (forall a c', Inv c' -> extends c c' -> Q a c' -> Q' a c') -> har m c Q'.
Proof. intros (a & c1 & E & I1 & X1 & H1) H. exists a, c1. auto 6. Qed.

(** ** Rows *)
Ltac row := unfold gate_eq; cbn [q1 q2 q3 q4 qm1 qm2 qc qecc qh1 qh2 qh3 qh4 qo w1 w2 w3 w4 wo g_pub].
Lemma sub_row_eq w k a b o : gate_eq w (sub_row F k a b o) <-> w o = w a - w b + k.
Proof.
  row. unfold sub_row. cbn. match goal with |- ?L = ?R <-> _ => replace L with (w a - w b + k) by ring; replace R with (w o) by ring end.
  split; intros H; [now rewrite H|now rewrite H].
Qed.
Lemma mac_row_eq w p a b o : gate_eq w (mac_row F p a b o) <-> w o = w p + w a * w b.
Proof.
  row. unfold mac_row. cbn. match goal with |- ?L = ?R <-> _ => replace L with (w p + w a * w b) by ring; replace R with (w o) by ring end.
  split; intros H; [now rewrite H|now rewrite H].
Qed.
Lemma add_row_eq w a b o : gate_eq w (add_row F a b o) <-> w o = w a + w b.
Proof.
  row. unfold add_row. cbn. match goal with |- ?L = ?R <-> _ => replace L with (w a + w b) by ring; replace R with (w o) by ring end.
  split; intros H; [now rewrite H|now rewrite H].
Qed.
Lemma carry_row_eq w k s l ci r co : gate_eq w (carry_row F k s l ci r co) <-> w l + w ci - k = w r + s * w co.
Proof.
  row. unfold carry_row. cbn.
  match goal with |- ?L = ?R <-> _ => replace L with ((w r + s * w co) - (w l + w ci - k)) by ring; replace R with (0 : F) by ring end.
  split; intros H; [symmetry; now apply fsub_0|apply fsub_0; now symmetry].
Qed.

(** ** Soundness of the gadgets *)
Lemma out_sound (x : F) (g : nat -> gate F) (v : (nat -> F) -> F) : (forall w o, gate_eq w (g o) -> w o = v w) ->
  sound (bnd (new_variable F x) (fun o => bnd (push_gate F (g o)) (fun _ => ret o))) (fun w o => w o = v w).
Proof.
  intros H. eapply sb; [apply sound_new|]. intros o. eapply sb; [apply sound_push|]. intros u. apply sr.
  intros w [E _] _. now apply H.
Qed.
Lemma nth_map0 w (l : list nat) i : w 0%nat = 0 -> nth i (map w l) 0 = w (nth i l 0%nat).
Proof. intros H. rewrite <- H. apply map_nth. Qed.
Lemma nth_wlimbs w (l : list nat) i : (i < length l)%nat -> nth i (wlimbs w l) 0%Z = toZ (w (nth i l 0%nat)).
Proof.
  intros H. unfold wlimbs. rewrite (nth_indep _ 0%Z (toZ (w 0%nat))) by (rewrite map_length; exact H).
  now rewrite (map_nth (fun v => toZ (w v))).
Qed.
Lemma wlimbs_map w l : wlimbs w l = map toZ (map w l).
Proof. unfold wlimbs. now rewrite map_map. Qed.
Lemma wlimbs_len w l : length (wlimbs w l) = length l.
Proof. apply map_length. Qed.

Lemma var_sub_sound P (a b : simvar F) :
  rsound (var_sub P a b) (fun w o => sim_sub P (sv a) (sv b) = Ok (sv o) /\
    map w (svar o) = map (fun i => w (nth i (svar a) 0%nat) - w (nth i (svar b) 0%nat) + fofZ (nth i (pad_limbs P) 0%Z)) (seq 0 6)).
Proof.
  unfold var_sub. eapply rs_bind; [apply rs_res|]. intros v. apply rs_lift.
  eapply sb.
  { apply (mapM_sound F _ (fun w i => w (nth i (svar a) 0%nat) - w (nth i (svar b) 0%nat) + fofZ (nth i (pad_limbs P) 0%Z))).
    intros i _. apply out_sound. intros w o. apply sub_row_eq. }
  intros l. apply sr. cbn [svar sv]. auto.
Qed.
Lemma mac_loop_sound (a b : simvar F) i ls : forall prior x,
  sound (mac_loop F a b i ls prior x) (fun w o =>
    w o = fold_left (fun acc l => acc + w (nth l (svar a) 0%nat) * w (nth (i - l) (svar b) 0%nat)) ls (w prior)).
Proof.
  induction ls as [|l ls IH]; intros prior x; cbn [mac_loop].
  - apply sr. reflexivity.
  - eapply sb; [apply sound_new|]. intros o. eapply sb; [apply sound_push|]. intros u. eapply sw; [apply IH|].
    intros w o' H [E _] _. apply mac_row_eq in E. cbn [fold_left]. now rewrite <- E.
Qed.
Lemma var_mul_sound (a b : simvar F) :
  sound (var_mul a b) (fun w o => mv o = sim_mul (sv a) (sv b) /\
    (w 0%nat = 0 -> map w (mvar o) = convolve F (map w (svar a)) (map w (svar b)))).
Proof.
  unfold var_mul. eapply sb.
  { apply (mapM_sound F _ (fun w i => fold_left (fun acc l => acc + w (nth l (svar a) 0%nat) * w (nth (i - l) (svar b) 0%nat)) (lefts i) (w 0%nat))).
    intros i _. apply mac_loop_sound. }
  intros l. apply sr. intros w E. cbn [mv mvar]. split; [reflexivity|]. intros W0. rewrite E. unfold convolve.
  apply map_ext. intros i. rewrite W0.
  assert (G : forall ls acc, fold_left (fun acc l => acc + w (nth l (svar a) 0%nat) * w (nth (i - l) (svar b) 0%nat)) ls acc =
    fold_left (fun acc l => acc + nth l (map w (svar a)) 0 * nth (i - l) (map w (svar b)) 0) ls acc).
  { induction ls as [|x ls IH]; intros acc; cbn [fold_left]; [reflexivity|]. rewrite IH. now rewrite !(nth_map0 w) by exact W0. }
  apply G.
Qed.
Lemma mulvar_add_sound (a b : simulvar F) :
  sound (mulvar_add a b) (fun w o => mv o = simul_add (mv a) (mv b) /\
    map w (mvar o) = map (fun i => w (nth i (mvar a) 0%nat) + w (nth i (mvar b) 0%nat)) (seq 0 11)).
Proof.
  unfold mulvar_add. cbn zeta. eapply sb.
  { apply (mapM_sound F _ (fun w i => w (nth i (mvar a) 0%nat) + w (nth i (mvar b) 0%nat))).
    intros i _. apply out_sound. intros w o. apply add_row_eq. }
  intros l. apply sr. cbn [mv mvar]. auto.
Qed.
Lemma mulvar_sub_sound P (a : simulvar F) (b : simvar F) :
  rsound (mulvar_sub P a b) (fun w o => simul_sub P (mv a) (sv b) = Ok (mv o) /\
    map w (mvar o) = map (fun i => w (nth i (mvar a) 0%nat) - w (nth i (svar b) 0%nat) + pad4 F P i) (seq 0 6) ++ map w (skipn 6 (mvar a))).
Proof.
  unfold mulvar_sub. eapply rs_bind; [apply rs_res|]. intros v. apply rs_lift. eapply sb.
  { apply (mapM_sound F _ (fun w i => w (nth i (mvar a) 0%nat) - w (nth i (svar b) 0%nat) + pad4 F P i)).
    intros i _. apply out_sound. intros w o. apply sub_row_eq. }
  intros l. apply sr. intros w E H. cbn [mv mvar]. split; [exact H|]. rewrite map_app, E. reflexivity.
Qed.

(** ** The zero check *)
Lemma mapM_all_sound {A} (f : A -> CS F nat) (Q : (nat -> F) -> A -> nat -> Prop) l :
  (forall a, sound (f a) (fun w o => Q w a o)) ->
  sound (mapM F f l) (fun w os => Forall2 (Q w) l os).
Proof.
  intros H. induction l as [|a l IH]; cbn [mapM].
  - apply sr. constructor.
  - eapply sb; [apply H|]. intros o. eapply sb; [apply IH|]. intros os. apply sr. intros w H1 H2. now constructor.
Qed.
Lemma lc_sound a b c d k1 k2 k3 k4 :
  sound (linear_combine F a b c d k1 k2 k3 k4) (fun w o => w o = k1 * w a + k2 * w b + k3 * w c + k4 * w d).
Proof. apply linear_combine_sound. Qed.
Lemma rk_loop_sound rl ks i n : forall ls, (length ls <= n)%nat -> forall acc,
  sound (rk_loop F rl ks i ls acc) (fun w o =>
    w o = fold_left (fun acc l => acc + nth l rl 0 * w (nth (i - l) ks 0%nat)) ls (w acc)).
Proof.
  induction n as [|n IH]; intros ls Hn acc.
  { destruct ls; [|cbn in Hn; lia]. cbn [rk_loop]. apply sr. reflexivity. }
  destruct ls as [|a [|b [|c ls]]]; cbn [rk_loop].
  - apply sr. reflexivity.
  - eapply sw; [apply lc_sound|]. intros w o E. cbn [fold_left]. rewrite E. ring.
  - eapply sw; [apply lc_sound|]. intros w o E. cbn [fold_left]. rewrite E. ring.
  - eapply sb; [apply lc_sound|]. intros o. eapply sw; [apply IH; cbn in Hn; lia|]. intros w o' H E. cbn [fold_left].
    rewrite H. f_equal. rewrite E. ring.
Qed.
Lemma group_vars_sound P l : forall r, length l = length r ->
  sound (group_vars F P l r) (fun w vs =>
    map (fun p => (w (fst p), w (snd p))) vs = map fst (zip_groups F P (map w l) (map w r))).
Proof.
  induction l as [|a|a b l IH] using pair_ind; intros r H.
  - destruct r; [|discriminate]. cbn [group_vars]. apply sr. reflexivity.
  - destruct r as [|a' [|]]; try discriminate. cbn [group_vars]. apply sr. reflexivity.
  - destruct r as [|a' [|b' r]]; try discriminate. cbn [group_vars].
    eapply sb; [apply lc_sound|]. intros o. eapply sb; [apply lc_sound|]. intros o'. eapply sb; [apply IH; cbn in H; lia|].
    intros os. apply sr. intros w E1 E2 E3. unfold zip_groups in *. cbn [map groups combine fst snd].
    rewrite E1, E2, E3. do 2 f_equal; ring.
Qed.
Lemma zip_groups_shape P (l r l' r' : list F) : length l = length l' -> length r = length r' -> length l = length r ->
  map snd (zip_groups F P l r) = map snd (zip_groups F P l' r').
Proof.
  revert r l' r'. induction l as [|a|a b l IH] using pair_ind; intros r l' r' H1 H2 H3.
  - destruct l'; [|discriminate]. reflexivity.
  - destruct l' as [|? [|]]; try discriminate. destruct r as [|? [|]]; try discriminate. destruct r' as [|? [|]]; try discriminate.
    reflexivity.
  - destruct l' as [|? [|? l']]; try discriminate. destruct r as [|? [|? r]]; try discriminate. destruct r' as [|? [|? r']]; try discriminate.
    unfold zip_groups in *. cbn [groups combine map snd fst]. f_equal. apply IH; cbn in *; lia.
Qed.

Definition wtriple w (g : F * F * nat * (nat * nat)) : Z * Z * nat :=
  (toZ (w (fst (snd g))), toZ (w (snd (snd g))), snd (fst g)).
Lemma wtriple_combine w gs vs Z3 : map snd gs = map snd Z3 -> map (fun p => (w (fst p), w (snd p))) vs = map fst Z3 ->
  map (wtriple w) (combine gs vs) = map (fun g : F * F * nat => (toZ (fst (fst g)), toZ (snd (fst g)), snd g)) Z3.
Proof.
  revert vs Z3. induction gs as [|g gs IH]; intros [|v vs] [|z Z3] H1 H2; try discriminate; cbn [combine map]; [reflexivity|].
  cbn [map] in H1, H2. injection H1 as E1 E2. injection H2 as E3 E4. f_equal; [|now apply IH].
  unfold wtriple. cbn [fst snd]. rewrite <- E3. cbn [fst snd]. now rewrite E1.
Qed.

Definition sizes_ok (gs : list (F * F * nat * (nat * nat))) : Prop := Forall (fun g => snd (fst g) = 1%nat \/ snd (fst g) = 2%nat) gs.
Lemma carry_loop_sound P gs : facts P -> gs <> [] -> sizes_ok gs -> forall cin cv a, (0 <= a <= 400 * st P)%Z ->
  sound (carry_loop F P gs cin cv a) (fun w _ =>
    Forall (gok P) (map (wtriple w) gs) -> (toZ (w cv) < 32 * (st P * st P))%Z ->
    chain P (map (wtriple w) gs) (toZ (w cv)) a).
Proof.
  intros K. pose proof (f_st P K) as Hs. pose proof (st2_le P K) as S2. pose proof (st3_le P K) as S3. pose proof (st2_ge P K) as S4.
  induction gs as [|[[[lg rg] n] [lv rv]] gs IH]; intros Hne Hsz cin cv a Ha; [congruence|]. cbn [carry_loop].
  inversion Hsz as [|? ? Hn Hsz']; subst. cbn [fst snd] in Hn.
  assert (Hpn : (0 < pad P n <= 128 * (st P * st P * st P) /\ 0 < shift P n <= st P * st P /\ a + pad P n < 400 * st P * shift P n)%Z).
  { destruct Hn as [-> | ->]; [rewrite pad1, shift1|rewrite pad2, shift2]; repeat split; nia. }
  destruct Hpn as (Hp1 & Hs1 & Ha1).
  assert (Ep : toZ (fofZ (F := F) (pad P n)) = pad P n) by (apply toZ_small; lia). rewrite Ep.
  pose proof (Z.mod_pos_bound (a + pad P n) (shift P n) ltac:(lia)) as M.
  assert (B2 : (0 <= (a + pad P n) / shift P n < 400 * st P)%Z).
  { split; [apply Z.div_pos; lia|]. apply Z.div_lt_upper_bound; [lia|]. lia. }
  set (q := ((a + pad P n) / shift P n)%Z) in *. set (m := ((a + pad P n) mod shift P n)%Z) in *.
  assert (STEP : forall w co, gate_eq w (carry_row F (- fofZ (pad P n) + fofZ m) (fofZ (shift P n)) lv cv rv co) ->
     gok P (wtriple w (lg, rg, n, (lv, rv))) -> (toZ (w cv) < 32 * (st P * st P))%Z -> (toZ (w co) < 32 * (st P * st P))%Z ->
     (toZ (w lv) + toZ (w cv) + pad P n = toZ (w rv) + shift P n * toZ (w co) + m)%Z).
  { intros w co E G H1 H2. apply carry_row_eq in E. unfold gok, wtriple in G. cbn [fst snd] in G.
    pose proof (toZ_range F (w lv)). pose proof (toZ_range F (w cv)). pose proof (toZ_range F (w rv)). pose proof (toZ_range F (w co)).
    assert (X : (shift P n * toZ (w co) <= 2 ^ 88 * 2 ^ 93)%Z) by (apply Z.mul_le_mono_nonneg; lia).
    assert (X0 : (0 <= shift P n * toZ (w co))%Z) by (apply Z.mul_nonneg_nonneg; lia).
    assert (Y : (toZ (w lv) <= 2 ^ 140 /\ toZ (w rv) <= 2 ^ 135)%Z) by lia.
    rewrite <- (toZ_small F (toZ (w lv) + toZ (w cv) + pad P n)) by lia.
    rewrite <- (toZ_small F (toZ (w rv) + shift P n * toZ (w co) + m)) by lia.
    f_equal. rewrite !fofZ_add, fofZ_mul, !fofZ_toZ.
    transitivity (w lv + w cv - (- fofZ (pad P n) + fofZ m) + fofZ m); [ring|]. rewrite E. ring. }
  eapply sb; [apply sound_new|]. intros co. eapply sb; [apply sound_push|]. intros [].
  destruct gs as [|g2 gs].
  - eapply sb; [apply const_gate_sound|]. intros []. cbn [carry_loop]. apply sr.
    intros w E0 [E1 _] _ HF Hc. cbn [map] in *. inversion HF as [|? ? G _]; subst.
    assert (Eq : toZ (w co) = q) by (rewrite E0; apply toZ_small; lia).
    cbn [chain wtriple fst snd]. exists (toZ (w co)). fold m. fold q. split; [apply STEP; try assumption; lia|exact Eq].
  - eapply sb.
    { eapply sb; [apply (range_check_sound F co (surfeit + BIT_PER_LIMB P * 2)); [unfold surfeit; lia|]|].
      - rewrite bound_carry. lia.
      - intros b. apply (sr F tt (fun w _ => _ w b -> (toZ (w co) < 32 * (st P * st P))%Z)).
        intros w (_ & H & _). now rewrite bound_carry in H. }
    intros []. eapply sw; [apply IH; [discriminate|exact Hsz'|lia]|].
    intros w [] HC Hco [E1 _] _ HF Hc. inversion HF as [|? ? G HF']; subst.
    cbn [map chain wtriple fst snd]. exists (toZ (w co)). fold m. fold q. split; [now apply STEP|].
    now apply HC.
Qed.

Lemma kwidth_le P : facts P -> forall i, (2 <= kwidth P i)%nat /\ (2 ^ Z.of_nat (kwidth P i) <= st P)%Z.
Proof.
  intros K i. pose proof (facts_B P K) as HB. destruct (f_tp P K) as [T1 T2]. unfold kwidth.
  destruct (Nat.eqb i (NUM_OF_LIMBS - 1)).
  - split; [lia|]. rewrite Nat2Z.inj_add, Z.pow_add_r by lia. change (2 ^ Z.of_nat 5)%Z with 32%Z. fold (tp P). lia.
  - split; [lia|]. fold (st P). lia.
Qed.
Lemma sb_static {A B} (m : CS F A) (f : A -> CS F B) (S : A -> Prop) R (Q : (nat -> F) -> B -> Prop) :
  (forall c, S (fst (m c))) -> sound m R -> (forall a, S a -> sound (f a) (fun w b => R w a -> Q w b)) -> sound (bnd m f) Q.
Proof.
  intros HS Hm Hf c w H. rewrite bnd_eq in *. apply Hf in H; [|apply HS]. destruct H as [H1 H2].
  apply Hm in H1. destruct H1 as [H1 H3]. auto.
Qed.
Lemma group_vars_len P l : forall r c, length l = length r ->
  length (fst (group_vars F P l r c)) = length (zip_groups F P (repeat 0 (length l)) (repeat 0 (length r))).
Proof.
  induction l as [|a|a b l IH] using pair_ind; intros r c H.
  - destruct r; [reflexivity|discriminate].
  - destruct r as [|a' [|]]; try discriminate. reflexivity.
  - destruct r as [|a' [|b' r]]; try discriminate. cbn [group_vars]. rewrite !bnd_eq. cbn [ret fst length].
    rewrite IH by (cbn in H; lia). unfold zip_groups. cbn [repeat groups combine map length]. reflexivity.
Qed.
Lemma combine_sizes (gs : list (F * F * nat)) (vs : list (nat * nat)) :
  Forall (fun n => n = 1%nat \/ n = 2%nat) (map snd gs) -> sizes_ok (combine gs vs).
Proof.
  revert vs. unfold sizes_ok. induction gs as [|g gs IH]; intros [|v vs] H; cbn [combine]; try constructor.
  - cbn [map] in H. now inversion H.
  - apply IH. cbn [map] in H. now inversion H.
Qed.
Lemma gates_sound P (m : simulvar F) x gs : facts P -> length (mvar m) = 11%nat ->
  map snd gs = map snd (zip_groups F P (repeat 0 11) (repeat 0 11)) ->
  sound (enforce_zero_gates F P m x gs) (fun w _ =>
    w 0%nat = 0 -> Forall (fun z => 0 <= z <= 186 * (st P * st P))%Z (wlimbs w (mvar m)) -> (wnumber P w (mvar m) mod modulus P = 0)%Z).
Proof.
  intros K Lm Hgs. pose proof (f_st P K) as Hs. pose proof (st2_le P K) as S2. pose proof (f_mod P K) as Hm.
  unfold enforce_zero_gates.
  eapply sb.
  { apply (mapM_all_sound _ (fun w i o => (toZ (w o) < st P)%Z)). intros i. eapply sb; [apply sound_new|]. intros o.
    destruct (kwidth_le P K i) as [W1 W2]. eapply sb; [apply (range_check_sound F o (kwidth P i)); [exact W1|lia]|].
    intros b. apply sr. intros w (_ & H & _) _. lia. }
  intros ks. eapply (sb_static _ _ (fun rks => length rks = 11%nat)).
  { intros c. apply mapM_len. }
  { apply (mapM_sound F _ (fun w i => fold_left (fun acc l => acc + nth l (map fofZ (modulus_limbs P)) 0 * w (nth (i - l) ks 0%nat)) (lefts i) (w 0%nat))).
    intros i _. apply (rk_loop_sound _ _ _ (length (lefts i))). lia. }
  intros rks Lr. eapply (sb_static _ _ (fun vs => length vs = 6%nat)).
  { intros c. rewrite group_vars_len by lia. rewrite Lm, Lr. reflexivity. }
  { apply group_vars_sound. lia. }
  intros vs Lv. assert (Lg : length gs = 6%nat) by (rewrite <- (map_length snd gs), Hgs; reflexivity).
  eapply sw.
  { apply (carry_loop_sound P (combine gs vs) K); [|apply combine_sizes; rewrite Hgs; repeat (constructor; [auto|]); constructor|lia].
    destruct gs; [discriminate|]. destruct vs; [discriminate|]. discriminate. }
  intros w [] HC Hvs Hrk Hks W0 HL.
  assert (Lk : length ks = 6%nat) by (rewrite <- (Forall2_len _ _ _ Hks); reflexivity).
  assert (Hk : Forall (fun z => 0 <= z < st P)%Z (wlimbs w ks)).
  { clear - Hks. unfold wlimbs. apply Forall_forall. intros z Hz. apply in_map_iff in Hz. destruct Hz as [v [<- Hv]].
    split; [apply toZ_range|]. revert Hv. induction Hks as [|i o l os H _ IH]; intros Hv; [destruct Hv|]. destruct Hv as [<- | Hv]; auto. }
  assert (Ek : map w rks = convolve F (map fofZ (modulus_limbs P)) (map w ks)).
  { rewrite Hrk. unfold convolve. apply map_ext. intros i. rewrite W0.
    assert (G : forall ls acc, fold_left (fun acc l => acc + nth l (map fofZ (modulus_limbs P)) 0 * w (nth (i - l) ks 0%nat)) ls acc =
      fold_left (fun acc l => acc + nth l (map fofZ (modulus_limbs P)) 0 * nth (i - l) (map w ks) 0) ls acc).
    { induction ls as [|y ls IH]; intros acc; cbn [fold_left]; [reflexivity|]. rewrite IH. now rewrite !(nth_map0 w) by exact W0. }
    apply G. }
  rewrite wlimbs_map in Hk.
  assert (ER : wlimbs w rks = convZ (modulus_limbs P) (map toZ (map w ks))) by (rewrite wlimbs_map, Ek; now apply (rk_toZ F Hp)).
  rewrite (wtriple_combine w gs vs (zip_groups F P (map w (mvar m)) (map w rks))) in HC.
  2: { rewrite Hgs. apply zip_groups_shape; rewrite ?map_length, ?repeat_length; lia. }
  2: { exact Hvs. }
  assert (EZ : map (fun g : F * F * nat => (toZ (fst (fst g)), toZ (snd (fst g)), snd g)) (zip_groups F P (map w (mvar m)) (map w rks)) =
               zipZ (st P) (wlimbs w (mvar m)) (wlimbs w rks)).
  { rewrite <- (map_fofZ_toZ F (map w (mvar m))), <- (map_fofZ_toZ F (map w rks)), zip_F, map_map. rewrite <- !wlimbs_map.
    rewrite <- (map_id (zipZ (st P) (wlimbs w (mvar m)) (wlimbs w rks))) at 2. apply map_ext_in. intros g Hg.
    assert (Go : gok P g).
    { assert (A : Forall (gok P) (zipZ (st P) (wlimbs w (mvar m)) (wlimbs w rks))).
      { apply gok_zip; [exact K|rewrite !wlimbs_len; lia|exact HL|]. rewrite ER. now apply rk_bound. }
      rewrite Forall_forall in A. now apply A. }
    destruct g as [[l r] n]. unfold toF3, gok in *. cbn [fst snd]. pose proof (st3_le P K).
    rewrite !toZ_small by lia. reflexivity. }
  rewrite EZ in HC.
  assert (Gz : Forall (gok P) (zipZ (st P) (wlimbs w (mvar m)) (wlimbs w rks))).
  { apply gok_zip; [exact K|rewrite !wlimbs_len; lia|exact HL|]. rewrite ER. now apply rk_bound. }
  specialize (HC Gz).
  change zero_var with 0%nat in HC. rewrite W0, (toZ_0 F) in HC. specialize (HC ltac:(pose proof (st2_ge P K); lia)).
  apply chain_gev in HC. rewrite gev_zip in HC by (rewrite !wlimbs_len; lia).
  rewrite ER, convZ_number in HC by (rewrite ?map_length; try exact Lk; apply (f_rlen P K)).
  rewrite (f_rnum P K) in HC. unfold wnumber. fold (st P).
  replace (number (st P) (wlimbs w (mvar m))) with (modulus P * number (st P) (map toZ (map w ks)))%Z by lia.
  rewrite Z.mul_comm. apply Z.mod_mul. lia.
Qed.

Lemma var_enforce_zero_sound P (m : simulvar F) : facts P -> length (mlimbs (mv m)) = 11%nat -> length (mvar m) = 11%nat ->
  rsound (var_enforce_zero P m) (fun w _ => (prod_additions (mv m) < 32)%Z /\
    (w 0%nat = 0 -> mlimbs_ok P (prod_additions (mv m)) (wlimbs w (mvar m)) -> (wnumber P w (mvar m) mod modulus P = 0)%Z)).
Proof.
  intros K Lm Lv. unfold var_enforce_zero. eapply rs_bind; [apply rs_require|]. intros [].
  eapply rs_bind; [apply rs_res|]. intros x. cbn zeta. eapply rs_bind; [apply rs_require|]. intros [].
  apply rs_lift. eapply sw; [apply (gates_sound P m x _ K Lv)|].
  - apply zip_groups_shape; unfold convolve; rewrite ?map_length, ?seq_length, ?repeat_length; auto.
  - intros w [] H _ _ Hn. apply Z.ltb_lt in Hn. split; [exact Hn|]. intros W0 HM. apply H; [exact W0|]. eapply mlimbs_186; eassumption.
Qed.

(** ** Whole computations *)
Definition rstat {A} (m : CR F A) (S : A -> Prop) : Prop := forall c a c', m c = Ok (a, c') -> S a.
Lemma rs_stat {A B} (m : CR F A) (f : A -> CR F B) (S : A -> Prop) R (Q : (nat -> F) -> B -> Prop) :
  rstat m S -> rsound m R -> (forall a, S a -> rsound (f a) (fun w b => R w a -> Q w b)) -> rsound (rbnd m f) Q.
Proof.
  intros HS Hm Hf c b c' E w St. unfold rbnd in E. destruct (m c) as [[a c1]| |] eqn:E1; try discriminate.
  destruct (Hf a (HS _ _ _ E1) c1 b c' E w St) as [S1 H1]. destruct (Hm c a c1 E1 w S1) as [S0 H0]. auto.
Qed.
Lemma rt_bind {A B} (m : CR F A) (f : A -> CR F B) (S : A -> Prop) T : rstat m S -> (forall a, S a -> rstat (f a) T) -> rstat (rbnd m f) T.
Proof.
  intros HS Hf c b c' E. unfold rbnd in E. destruct (m c) as [[a c1]| |] eqn:E1; try discriminate. eapply Hf; [|exact E]. eapply HS; exact E1.
Qed.
Lemma rt_lift {A} (m : CS F A) (S : A -> Prop) : (forall c, S (fst (m c))) -> rstat (lift m) S.
Proof. intros H c a c' E. unfold lift in E. apply Ok_inj in E. specialize (H c). now rewrite E in H. Qed.
Lemma rt_true {A} (m : CR F A) : rstat m (fun _ => True).
Proof. intros c a c' E. exact I. Qed.
Definition eleven (m : simulvar F) : Prop := length (mlimbs (mv m)) = 11%nat /\ length (mvar m) = 11%nat.
Lemma mbuild_eleven P e : rstat (mbuild P e) eleven.
Proof.
  induction e as [a b|a IHa b IHb|a IHa b]; cbn [mbuild].
  - eapply rt_bind; [apply rt_true|]. intros x _. eapply rt_bind; [apply rt_true|]. intros y _. apply rt_lift. intros c.
    unfold var_mul. rewrite bnd_eq. cbn [ret fst]. split; cbn [mv mvar mlimbs sim_mul].
    + unfold convolve. now rewrite map_length, seq_length.
    + now rewrite mapM_len.
  - eapply rt_bind; [apply rt_true|]. intros x _. eapply rt_bind; [apply rt_true|]. intros y _. apply rt_lift. intros c.
    unfold mulvar_add. cbn zeta. rewrite bnd_eq. cbn [ret fst]. split; cbn [mv mvar mlimbs simul_add].
    + now rewrite map_length, seq_length.
    + now rewrite mapM_len.
  - eapply rt_bind; [apply IHa|]. intros x [Hx1 Hx2]. eapply rt_bind; [apply rt_true|]. intros y _. unfold mulvar_sub.
    apply (rt_bind _ _ (fun v => length (mlimbs v) = 11%nat)).
    + intros c v c' E. unfold of_res, rmap in E. destruct (simul_sub P (mv x) (sv y)) as [v'| |] eqn:Ev; try discriminate.
      apply Ok_inj in E. injection E as <- _. unfold simul_sub in Ev. destruct (4 <? _)%Z; [discriminate|].
      destruct (_ <? _)%Z; [discriminate|]. apply Ok_inj in Ev. subst v'. cbn [mlimbs].
      rewrite app_length, map_length, seq_length, skipn_length, Hx1. reflexivity.
    + intros v Hv. apply rt_lift. intros c. rewrite bnd_eq. cbn [ret fst]. split; cbn [mv mvar]; [exact Hv|].
      rewrite app_length, mapM_len, skipn_length, Hx2. reflexivity.
Qed.

Lemma nth_w w (l : list nat) i : (i < length l)%nat -> w (nth i l 0%nat) = fofZ (nth i (wlimbs w l) 0%Z).
Proof. intros H. now rewrite nth_wlimbs, fofZ_toZ by exact H. Qed.
Lemma sub_w P w ra rb va vb vo : facts P -> limbs_ok P ra (wlimbs w va) -> limbs_ok P rb (wlimbs w vb) ->
  match rb with Others _ => False | _ => True end -> (additions ra <= CAP)%Z ->
  map w vo = map (fun i => w (nth i va 0%nat) - w (nth i vb 0%nat) + fofZ (nth i (pad_limbs P) 0%Z)) (seq 0 6) ->
  limbs_ok P (Others (additions ra + 3)) (wlimbs w vo) /\
  wnumber P w vo = (wnumber P w va + pad_value P - wnumber P w vb)%Z.
Proof.
  intros K Oa Ob Rb HC E.
  assert (La : length va = 6%nat) by (rewrite <- (wlimbs_len w); apply Oa).
  assert (Lb : length vb = 6%nat) by (rewrite <- (wlimbs_len w); apply Ob).
  apply (sub_limbs F Hp P ra rb (wlimbs w va) (wlimbs w vb)); auto.
  - now rewrite (wlimbs_map w vo), E, !map_length, seq_length.
  - intros i Hi. rewrite (wlimbs_map w vo), E, map_map. rewrite (nth_map_seq _ 6 i) by exact Hi.
    rewrite !(nth_w w) by lia. rewrite fofZ_sub, fofZ_add. f_equal. ring.
Qed.
Lemma mul_w P w ra rb va vb vo : facts P -> limbs_ok P ra (wlimbs w va) -> limbs_ok P rb (wlimbs w vb) ->
  ((additions ra + 1) * (additions rb + 1) <= CAP)%Z -> map w vo = convolve F (map w va) (map w vb) ->
  mlimbs_ok P ((additions ra + 1) * (additions rb + 1)) (wlimbs w vo) /\
  wnumber P w vo = (wnumber P w va * wnumber P w vb)%Z.
Proof.
  intros K Oa Ob HC E. destruct (mul_limbs F Hp P ra rb _ _ K Oa Ob) as [H1 H2].
  assert (EZ : wlimbs w vo = convZ (wlimbs w va) (wlimbs w vb)).
  { rewrite (wlimbs_map w vo), E, conv_toZ; [now rewrite <- !wlimbs_map|]. rewrite <- !wlimbs_map. eapply (mlimbs_small F Hp); eassumption. }
  unfold wnumber. rewrite EZ. auto.
Qed.
Lemma add_w P w n m va vb vo : facts P -> mlimbs_ok P n (wlimbs w va) -> mlimbs_ok P m (wlimbs w vb) -> (n + m <= CAP)%Z ->
  map w vo = map (fun i => w (nth i va 0%nat) + w (nth i vb 0%nat)) (seq 0 11) ->
  mlimbs_ok P (n + m) (wlimbs w vo) /\ wnumber P w vo = (wnumber P w va + wnumber P w vb)%Z.
Proof.
  intros K Oa Ob HC E. destruct (add_limbs F Hp P n m _ _ K Oa Ob) as [H1 H2].
  assert (La : length va = 11%nat) by (rewrite <- (wlimbs_len w); apply Oa).
  assert (Lb : length vb = 11%nat) by (rewrite <- (wlimbs_len w); apply Ob).
  assert (EZ : wlimbs w vo = sumZ (wlimbs w va) (wlimbs w vb)).
  { rewrite <- (toZ_map F (sumZ _ _)) by (eapply (mlimbs_small F Hp); eassumption). rewrite (wlimbs_map w vo), E. f_equal.
    unfold sumZ. rewrite map_map. apply map_ext_in. intros i Hi. apply in_seq in Hi. rewrite fofZ_add, !(nth_w w) by lia. reflexivity. }
  unfold wnumber. rewrite EZ. auto.
Qed.
Lemma msub_w P w n r va vb vo : facts P -> mlimbs_ok P n (wlimbs w va) -> limbs_ok P r (wlimbs w vb) -> (additions r <= 4)%Z -> (n + 12 <= CAP)%Z ->
  map w vo = map (fun i => w (nth i va 0%nat) - w (nth i vb 0%nat) + pad4 F P i) (seq 0 6) ++ map w (skipn 6 va) ->
  mlimbs_ok P (n + 12) (wlimbs w vo) /\ wnumber P w vo = (wnumber P w va + 4 * pad_value P - wnumber P w vb)%Z.
Proof.
  intros K Oa Ob Hr HC E. destruct (msub_limbs F Hp P n r _ _ K Oa Ob Hr) as [H1 H2].
  assert (La : length va = 11%nat) by (rewrite <- (wlimbs_len w); apply Oa).
  assert (Lb : length vb = 6%nat) by (rewrite <- (wlimbs_len w); apply Ob).
  assert (EZ : wlimbs w vo = subZ P (wlimbs w va) (wlimbs w vb)).
  { rewrite <- (toZ_map F (subZ P _ _)) by (eapply (mlimbs_small F Hp); eassumption). rewrite (wlimbs_map w vo), E. f_equal.
    unfold subZ, NUM_OF_LIMBS. rewrite map_app. f_equal.
    - rewrite map_map. apply map_ext_in. intros i Hi. apply in_seq in Hi. rewrite fofZ_sub, fofZ_add, !(nth_w w), <- pad4_Z by lia. ring.
    - rewrite wlimbs_map, <- skipn_map, <- skipn_map. now rewrite map_fofZ_toZ. }
  unfold wnumber. rewrite EZ. auto.
Qed.
Lemma same_refl P x : same_mod P x x.
Proof. unfold same_mod. rewrite Z.sub_diag. apply Zmod_0_l. Qed.
Lemma same_sub P x y x' y' k : (0 < modulus P)%Z -> (k mod modulus P = 0)%Z -> same_mod P x x' -> same_mod P y y' -> same_mod P (x + k - y) (x' - y').
Proof.
  unfold same_mod. intros HM Hk Hx Hy. apply Z.mod_divide in Hk, Hx, Hy; try lia. apply Z.mod_divide; [lia|].
  replace (x + k - y - (x' - y'))%Z with ((x - x') + k - (y - y'))%Z by ring. apply Z.divide_sub_r; [apply Z.divide_add_r|]; assumption.
Qed.
Lemma same_add P x y x' y' : (0 < modulus P)%Z -> same_mod P x x' -> same_mod P y y' -> same_mod P (x + y) (x' + y').
Proof.
  unfold same_mod. intros HM Hx Hy. apply Z.mod_divide in Hx, Hy; try lia. apply Z.mod_divide; [lia|].
  replace (x + y - (x' + y'))%Z with ((x - x') + (y - y'))%Z by ring. now apply Z.divide_add_r.
Qed.
Lemma same_mul P x y x' y' : (0 < modulus P)%Z -> same_mod P x x' -> same_mod P y y' -> same_mod P (x * y) (x' * y').
Proof.
  unfold same_mod. intros HM Hx Hy. apply Z.mod_divide in Hx, Hy; try lia. apply Z.mod_divide; [lia|].
  replace (x * y - x' * y')%Z with ((x - x') * y + x' * (y - y'))%Z by ring.
  apply Z.divide_add_r; [now apply Z.divide_mul_l|now apply Z.divide_mul_r].
Qed.
Definition leaf_ok P w (v : simvar F) : Prop := limbs_ok P (red (sv v)) (wlimbs w (svar v)).
Lemma sbuild_sound P e : facts P -> rsound (sbuild P e) (fun w o => sleaves (leaf_ok P w) e ->
  (0 <= additions (red (sv o)))%Z /\
  ((additions (red (sv o)) <= CAP)%Z -> limbs_ok P (red (sv o)) (wlimbs w (svar o)) /\
     same_mod P (wnumber P w (svar o)) (smean (fun v => wnumber P w (svar v)) e))).
Proof.
  intros K. pose proof (f_mod P K) as HM. induction e as [v|a IHa b IHb]; cbn [sbuild sleaves smean].
  - apply rs_ret. intros w H. split; [eapply additions_pos; exact H|]. intros _. split; [exact H|apply same_refl].
  - eapply rs_bind; [exact IHa|]. intros x. eapply rs_bind; [exact IHb|]. intros y. eapply rs_weak; [apply var_sub_sound|].
    intros w o [Ev Ew] Hy Hx [La Lb]. specialize (Hx La). specialize (Hy Lb). destruct Hx as [Hx1 Hx2]. destruct Hy as [Hy1 Hy2].
    unfold sim_sub in Ev. destruct (red (sv y)) as [| |n] eqn:Ry; try discriminate;
    (destruct (_ <? _)%Z; [discriminate|]; apply Ok_inj in Ev; rewrite <- Ev; cbn [red additions];
     split; [lia|]; intros HC; destruct (Hx2 ltac:(lia)) as [Ox Mx]; destruct (Hy2 ltac:(unfold CAP; cbn [additions]; lia)) as [Oy My];
     destruct (sub_w P w _ _ (svar x) (svar y) (svar o) K Ox Oy I ltac:(lia) Ew) as [H1 H2];
     split; [exact H1|rewrite H2; apply same_sub; auto; [lia|apply (f_pmod P K)]]).
Qed.
Lemma mbuild_sound P e : facts P -> rsound (mbuild P e) (fun w o => w 0%nat = 0 -> mleaves (leaf_ok P w) e ->
  (0 <= prod_additions (mv o))%Z /\
  ((prod_additions (mv o) <= CAP)%Z -> mlimbs_ok P (prod_additions (mv o)) (wlimbs w (mvar o)) /\
     same_mod P (wnumber P w (mvar o)) (mmean (fun v => wnumber P w (svar v)) e))).
Proof.
  intros K. pose proof (f_mod P K) as HM. induction e as [a b|a IHa b IHb|a IHa b]; cbn [mbuild mleaves mmean].
  - eapply rs_bind; [apply (sbuild_sound P a K)|]. intros x. eapply rs_bind; [apply (sbuild_sound P b K)|]. intros y.
    apply rs_lift. eapply sw; [apply var_mul_sound|]. intros w o [Ev Ew] Hy Hx W0 [La Lb].
    destruct (Hx La) as [Hx1 Hx2]. destruct (Hy Lb) as [Hy1 Hy2]. specialize (Ew W0). rewrite Ev. cbn [sim_mul prod_additions].
    split; [nia|]. intros HC. destruct (Hx2 ltac:(nia)) as [Ox Mx]. destruct (Hy2 ltac:(nia)) as [Oy My].
    destruct (mul_w P w _ _ (svar x) (svar y) (mvar o) K Ox Oy HC Ew) as [H1 H2]. split; [exact H1|]. rewrite H2. apply same_mul; auto; lia.
  - eapply rs_bind; [apply IHa|]. intros x. eapply rs_bind; [apply IHb|]. intros y.
    apply rs_lift. eapply sw; [apply mulvar_add_sound|]. intros w o [Ev Ew] Hy Hx W0 [La Lb].
    destruct (Hx W0 La) as [Hx1 Hx2]. destruct (Hy W0 Lb) as [Hy1 Hy2]. rewrite Ev. cbn [simul_add prod_additions].
    split; [lia|]. intros HC. destruct (Hx2 ltac:(lia)) as [Ox Mx]. destruct (Hy2 ltac:(lia)) as [Oy My].
    destruct (add_w P w _ _ (mvar x) (mvar y) (mvar o) K Ox Oy HC Ew) as [H1 H2]. split; [exact H1|]. rewrite H2. apply same_add; auto; lia.
  - eapply rs_bind; [apply IHa|]. intros x. eapply rs_bind; [apply (sbuild_sound P b K)|]. intros y.
    eapply rs_weak; [apply mulvar_sub_sound|]. intros w o [Ev Ew] Hy Hx W0 [La Lb].
    destruct (Hx W0 La) as [Hx1 Hx2]. destruct (Hy Lb) as [Hy1 Hy2].
    unfold simul_sub in Ev. destruct (Z.ltb_spec 4 (additions (red (sv y)))) as [G|G]; [discriminate|].
    destruct (_ <? _)%Z; [discriminate|]. apply Ok_inj in Ev. rewrite <- Ev. cbn [prod_additions].
    split; [lia|]. intros HC. destruct (Hx2 ltac:(lia)) as [Ox Mx]. destruct (Hy2 ltac:(unfold CAP; lia)) as [Oy My].
    destruct (msub_w P w _ _ (mvar x) (svar y) (mvar o) K Ox Oy G HC Ew) as [H1 H2]. split; [exact H1|]. rewrite H2. apply same_sub; auto; [lia|].
    pose proof (f_pmod P K) as HQ. apply Z.mod_divide in HQ; [|lia]. apply Z.mod_divide; [lia|]. now apply Z.divide_mul_r.
Qed.
Theorem zero_circuit_sound P e : facts P -> rsound (zero_circuit P e) (fun w _ => w 0%nat = 0 -> mleaves (leaf_ok P w) e ->
  (mmean (fun v => wnumber P w (svar v)) e mod modulus P = 0)%Z).
Proof.
  intros K. pose proof (f_mod P K) as HM. unfold zero_circuit. eapply rs_stat; [apply mbuild_eleven|apply (mbuild_sound P e K)|].
  intros m [L1 L2]. eapply rs_weak; [apply (var_enforce_zero_sound P m K L1 L2)|].
  intros w [] [Hn H] Hm W0 HL. destruct (Hm W0 HL) as [_ H2]. destruct (H2 ltac:(unfold CAP; lia)) as [O S].
  specialize (H W0 O). unfold same_mod in S. apply Z.mod_divide in H, S; try lia. apply Z.mod_divide; [lia|].
  replace (mmean (fun v => wnumber P w (svar v)) e) with (wnumber P w (mvar m) - (wnumber P w (mvar m) - mmean (fun v => wnumber P w (svar v)) e))%Z by ring.
  now apply Z.divide_sub_r.
Qed.
End Circuit.
