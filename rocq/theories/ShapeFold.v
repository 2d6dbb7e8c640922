(** The same for gadgets that may panic: simulated arithmetic and address folding. *)
From Coq Require Import List ZArith NArith Bool Lia ZifyBool ZifyNat ZifyN.
From Verif Require Import Base Field PField Power UtilsModel TurboModel RescueModel MixModel AxfrModel NoteModel FoldModel SimModel AfoldModel ShapeProofs.
Import ListNotations.

Section ShapeF.
Context (F : PField).
Local Open Scope F_scope.
Notation sh := (sh F).
Notation alike := (alike F).

(** If both runs return, they leave the same gates. *)
Definition rsh {A A'} (m : CR F A) (m' : CR F A') (R : A -> A' -> Prop) : Prop :=
  forall c c' a d a' d', alike c c' -> m c = Ok (a, d) -> m' c' = Ok (a', d') -> alike d d' /\ R a a'.
Lemma rsh_bind {A A' B B'} (m : CR F A) (m' : CR F A') (f : A -> CR F B) (f' : A' -> CR F B') R R' :
  rsh m m' R -> (forall a a', R a a' -> rsh (f a) (f' a') R') -> rsh (rbnd m f) (rbnd m' f') R'.
Proof.
  intros Hm Hf c c' a d a' d' E H H'. unfold rbnd in *.
  destruct (m c) as [[x y]| |] eqn:E1; try discriminate. destruct (m' c') as [[x' y']| |] eqn:E2; try discriminate.
  destruct (Hm _ _ _ _ _ _ E E1 E2) as [E3 HR]. exact (Hf _ _ HR _ _ _ _ _ _ E3 H H').
Qed.
Lemma rsh_ret {A A'} (a : A) (a' : A') (R : A -> A' -> Prop) : R a a' -> rsh (rret a) (rret a') R.
Proof.
  intros HR c c' x d x' d' E H H'. unfold rret in *. apply Ok_inj in H. apply Ok_inj in H'.
  inversion H. inversion H'. subst. exact (conj E HR).
Qed.
Lemma rsh_lift {A} (m m' : CS F A) R : sh m m' R -> rsh (lift m) (lift m') R.
Proof.
  intros Hm c c' x d x' d' E H H'. unfold lift in *. apply Ok_inj in H. apply Ok_inj in H'.
  destruct (Hm c c' E) as [E1 HR]. rewrite H, H' in E1, HR. exact (conj E1 HR).
Qed.
Lemma rsh_require b b' : rsh (require b) (require b') (fun _ _ => b = true /\ b' = true).
Proof.
  intros c c' x d x' d' E H H'. unfold require in *. destruct b, b'; try discriminate.
  apply Ok_inj in H. apply Ok_inj in H'. inversion H. inversion H'. subst. split; [exact E|now split].
Qed.
Lemma rsh_res {A A'} (r : res A) (r' : res A') : rsh (of_res r) (of_res r') (fun a a' => r = Ok a /\ r' = Ok a').
Proof.
  intros c c' x d x' d' E H H'. unfold of_res, rmap in *. destruct r; try discriminate. destruct r'; try discriminate.
  apply Ok_inj in H. apply Ok_inj in H'. inversion H. inversion H'. subst. split; [exact E|now split].
Qed.

(** ** Simulated arithmetic *)
Section SimS.
Context (P : params).
Definition sv_like (a a' : simvar F) : Prop := svar a = svar a'.
Definition mv_like (a a' : simulvar F) : Prop := mvar a = mvar a' /\ length (mlimbs (mv a)) = length (mlimbs (mv a')).
Lemma sh_rows f f' (row : nat -> nat -> gate F) l :
  sh (RescueModel.mapM F (fun i => bnd (new_variable F (f i)) (fun o => bnd (push_gate F (row i o)) (fun _ => ret o))) l)
     (RescueModel.mapM F (fun i => bnd (new_variable F (f' i)) (fun o => bnd (push_gate F (row i o)) (fun _ => ret o))) l) eq.
Proof.
  apply sh_map1. intro i. eapply sh_bind; [apply sh_new|]. intros o ? <-. eapply sh_bind; [apply sh_push|]. intros ? ? _. now apply sh_ret.
Qed.
Lemma rsh_var_sub a a' b b' : sv_like a a' -> sv_like b b' -> rsh (var_sub P a b) (var_sub P a' b') sv_like.
Proof.
  intros EA EB. unfold var_sub. eapply rsh_bind; [apply rsh_res|]. intros v v' _. apply rsh_lift.
  rewrite EA, EB. eapply sh_bind; [apply sh_rows|]. intros l ? <-. now apply sh_ret.
Qed.
Lemma sh_mac a a' b b' i ls : sv_like a a' -> sv_like b b' -> forall prior x x',
  sh (mac_loop F a b i ls prior x) (mac_loop F a' b' i ls prior x') eq.
Proof.
  intros EA EB. induction ls as [|l ls IH]; intros prior x x'; [now apply sh_ret|]. cbn [mac_loop]. cbv zeta.
  rewrite EA, EB. eapply sh_bind; [apply sh_new|]. intros o ? <-. eapply sh_bind; [apply sh_push|]. intros ? ? _. apply IH.
Qed.
Lemma convolve_length (a b : list F) : length (convolve F a b) = NUM_OF_LIMBS_MUL.
Proof. unfold convolve. now rewrite map_length, seq_length. Qed.
Lemma sh_var_mul a a' b b' : sv_like a a' -> sv_like b b' -> sh (var_mul a b) (var_mul a' b') mv_like.
Proof.
  intros EA EB. unfold var_mul. eapply sh_bind; [apply sh_map1; intro; now apply sh_mac|]. intros l ? <-. apply sh_ret.
  split; [reflexivity|]. cbn [mv mlimbs sim_mul]. now rewrite !convolve_length.
Qed.
Lemma sh_input v v' : sh (alloc_input v) (alloc_input v') sv_like.
Proof. unfold alloc_input. eapply sh_bind; [apply sh_map1; intro; apply sh_new|]. intros l ? <-. now apply sh_ret. Qed.
Definition wit_like (p p' : simvar F * list nat) : Prop := sv_like (fst p) (fst p') /\ snd p = snd p'.
Lemma rsh_witness v v' : rsh (alloc_witness P v) (alloc_witness P v') wit_like.
Proof.
  unfold alloc_witness. eapply rsh_bind; [apply rsh_require|]. intros ? ? _. apply rsh_lift.
  eapply sh_bind.
  { apply sh_map1. intro i. eapply sh_bind; [apply sh_new|]. intros o ? <-. eapply sh_bind; [apply sh_range|]. intros b ? <-. now apply (sh_ret _ _ _ eq). }
  intros l ? <-. now apply sh_ret.
Qed.
Lemma sh_mul_add a a' b b' : mv_like a a' -> mv_like b b' -> sh (mulvar_add a b) (mulvar_add a' b') mv_like.
Proof.
  intros [EA _] [EB _]. unfold mulvar_add. cbv zeta. rewrite EA, EB. eapply sh_bind; [apply sh_rows|]. intros l ? <-.
  apply sh_ret. split; [reflexivity|]. cbn [mv mlimbs simul_add]. now rewrite !map_length.
Qed.
Lemma simul_sub_length (a : simul F) b r : simul_sub P a b = Ok r ->
  length (mlimbs r) = (NUM_OF_LIMBS + (length (mlimbs a) - NUM_OF_LIMBS))%nat.
Proof.
  unfold simul_sub. destruct (4 <? _)%Z; [discriminate|]. destruct (_ <? _)%Z; [discriminate|]. intro E. apply Ok_inj in E. subst r.
  cbn [mlimbs]. now rewrite app_length, map_length, seq_length, skipn_length.
Qed.
Lemma rsh_mul_sub a a' b b' : mv_like a a' -> sv_like b b' -> rsh (mulvar_sub P a b) (mulvar_sub P a' b') mv_like.
Proof.
  intros [EA LA] EB. unfold mulvar_sub. eapply rsh_bind; [apply rsh_res|]. intros v v' [Hv Hv']. apply rsh_lift.
  rewrite EA, EB. eapply sh_bind; [apply sh_rows|]. intros l ? <-. apply sh_ret. split; [reflexivity|]. cbn [mv].
  now rewrite (simul_sub_length _ _ _ Hv), (simul_sub_length _ _ _ Hv'), LA.
Qed.
Lemma sh_rk rl ks i : forall n ls, (length ls <= n)%nat -> forall acc, sh (rk_loop F rl ks i ls acc) (rk_loop F rl ks i ls acc) eq.
Proof.
  induction n as [|n IH]; intros ls L acc.
  - destruct ls; [now apply sh_ret|cbn in L; lia].
  - destruct ls as [|a [|b [|c ls]]]; [now apply sh_ret|apply sh_lc|apply sh_lc|]. cbn [rk_loop].
    eapply sh_bind; [apply sh_lc|]. intros o ? <-. apply IH. cbn in L. lia.
Qed.
Lemma sh_groups : forall n l r, (length l <= n)%nat -> sh (group_vars F P l r) (group_vars F P l r) eq.
Proof.
  induction n as [|n IH]; intros l r L.
  - destruct l; [now apply sh_ret|cbn in L; lia].
  - destruct l as [|a [|b l]]; destruct r as [|a' [|b' r]]; cbn [group_vars]; try now apply sh_ret.
    eapply sh_bind; [apply sh_lc|]. intros o ? <-. eapply sh_bind; [apply sh_lc|]. intros o' ? <-.
    eapply sh_bind; [apply IH; cbn in L; lia|]. intros os ? <-. now apply sh_ret.
Qed.
Definition grp_like (g g' : F * F * nat * (nat * nat)) : Prop := snd (fst g) = snd (fst g') /\ snd g = snd g'.
Lemma sh_carry gs gs' : Forall2 grp_like gs gs' -> forall ci ci' v ex,
  sh (carry_loop F P gs ci v ex) (carry_loop F P gs' ci' v ex) eq.
Proof.
  induction 1 as [|g g' gs gs' H HT IH]; intros ci ci' v ex; [now apply sh_ret|].
  destruct g as [[[lg rg] n] [lv rv]], g' as [[[lg' rg'] n'] [lv' rv']]. destruct H as [H1 H2]. cbn [fst snd] in *. subst n'.
  inversion H2. subst lv' rv'. cbn [carry_loop]. cbv zeta. eapply sh_bind; [apply sh_new|]. intros cv ? <-.
  eapply sh_bind; [apply sh_push|]. intros ? ? _. eapply sh_bind.
  { destruct HT; [apply sh_push|]. eapply sh_bind; [apply sh_range|]. intros ? ? _. apply (sh_ret _ _ _ eq). reflexivity. }
  intros ? ? _. apply IH.
Qed.
Lemma groups_like : forall n (l l' : list F), (length l <= n)%nat -> length l = length l' ->
  map snd (groups F P l) = map snd (groups F P l').
Proof.
  induction n as [|n IH]; intros l l' L E.
  - destruct l, l'; try reflexivity; cbn in L, E; lia.
  - destruct l as [|a [|b l]]; destruct l' as [|a' [|b' l']]; try (cbn in E; lia); try reflexivity.
    cbn [groups map snd]. f_equal. apply IH; cbn in L, E; lia.
Qed.
Lemma combine_like (g g' r r' : list (F * nat)) : map snd g = map snd g' -> length r = length r' ->
  map (fun p : (F * nat) * (F * nat) => snd (fst p)) (combine g r) = map (fun p => snd (fst p)) (combine g' r').
Proof.
  revert g' r r'. induction g as [|x g IH]; intros [|x' g'] [|y r] [|y' r'] E L; try discriminate; try reflexivity.
  cbn [map combine fst snd] in *. f_equal; [congruence|]. apply IH; [congruence|]. now apply eq_add_S.
Qed.
Lemma zip_like (l l' r r' : list F) : length l = length l' -> length r = length r' ->
  map snd (zip_groups F P l r) = map snd (zip_groups F P l' r').
Proof.
  intros L R. unfold zip_groups. rewrite !map_map. cbn [snd]. apply combine_like.
  - apply (groups_like (length l)); [lia|exact L].
  - rewrite <- (map_length snd (groups F P r)), <- (map_length snd (groups F P r')). f_equal. apply (groups_like (length r)); [lia|exact R].
Qed.
Lemma grp_combine (gs gs' : list (F * F * nat)) (vs : list (nat * nat)) : map snd gs = map snd gs' ->
  Forall2 grp_like (combine gs vs) (combine gs' vs).
Proof.
  revert gs' vs. induction gs as [|g gs IH]; intros [|g' gs'] vs E; try discriminate; [constructor|].
  destruct vs as [|v vs]; [constructor|]. cbn [combine map] in *. constructor; [|apply IH; congruence].
  split; [cbn [fst]; congruence|reflexivity].
Qed.
Lemma rsh_enforce m m' : mv_like m m' -> rsh (var_enforce_zero P m) (var_enforce_zero P m') eq.
Proof.
  intros [EM LM]. unfold var_enforce_zero. eapply rsh_bind; [apply rsh_require|]. intros ? ? _.
  eapply rsh_bind; [apply rsh_res|]. intros x x' _. cbv zeta. eapply rsh_bind; [apply rsh_require|]. intros ? ? _.
  apply rsh_lift. unfold enforce_zero_gates. cbv zeta. rewrite EM. eapply sh_bind.
  { apply sh_map1. intro i. eapply sh_bind; [apply sh_new|]. intros o ? <-. eapply sh_bind; [apply sh_range|]. intros ? ? _. now apply (sh_ret _ _ _ eq). }
  intros ks ? <-. eapply sh_bind; [apply sh_map1; intro i; eapply sh_rk; reflexivity|]. intros rks ? <-.
  eapply sh_bind; [eapply sh_groups; reflexivity|]. intros vs ? <-. apply sh_carry, grp_combine, zip_like; [exact LM|].
  now rewrite !convolve_length.
Qed.
End SimS.

(** ** Address folding *)
Section AfoldS.
Context (K : PField) (P : rescue_instance F) (e : N).
Definition bit_like (x x' : nat * bool * bool) : Prop := fst (fst x) = fst (fst x') /\ snd x = snd x'.
Lemma sh_compare l l' : Forall2 bit_like l l' -> forall vs vd s d s' d',
  sh (compare_loop F l vs vd s d) (compare_loop F l' vs vd s' d') eq.
Proof.
  induction 1 as [|x x' l l' H _ IH]; intros vs vd s d s' d'; [now apply sh_ret|].
  destruct x as [[v b] m], x' as [[v' b'] m']. destruct H as [H1 H2]. cbn [fst snd] in *. subst v' m'. cbn [compare_loop].
  destruct m; cbv zeta.
  - eapply sh_bind; [apply sh_new|]. intros ? ? <-. eapply sh_bind; [apply sh_push|]. intros ? ? _.
    eapply sh_bind; [apply sh_new|]. intros ? ? <-. eapply sh_bind; [apply sh_push|]. intros ? ? _. apply IH.
  - eapply sh_bind; [apply sh_new|]. intros ? ? <-. eapply sh_bind; [apply sh_push|]. intros ? ? _. apply IH.
Qed.
Lemma bits_combine (vars : list nat) : forall (b b' m : list bool), length b = length b' ->
  Forall2 bit_like (combine (combine vars b) m) (combine (combine vars b') m).
Proof.
  induction vars as [|v vars IH]; intros [|x b] [|x' b'] m L; try discriminate; try constructor.
  destruct m as [|y m]; [constructor|]. cbn [combine]. constructor; [now split|]. apply IH. now apply eq_add_S.
Qed.
Lemma Forall2_rev' {A B} (R : A -> B -> Prop) l l' : Forall2 R l l' -> Forall2 R (rev l) (rev l').
Proof. induction 1; [constructor|]. cbn [rev]. apply Forall2_app; [assumption|]. repeat constructor. assumption. Qed.
Lemma sh_check_keys pk sk bs bs' m : length (bits_of_bytes bs) = length (bits_of_bytes bs') ->
  sh (check_keys F pk sk bs m) (check_keys F pk sk bs' m) eq.
Proof.
  intro L. destruct pk as [[p0 p1] p2]. unfold check_keys. do 5 (eapply sh_bind; [apply sh_range|]; intros ? ? <-).
  eapply sh_bind; [|intros ? ? _; now apply sh_ret]. unfold compare_bits. eapply sh_bind.
  { apply sh_compare, Forall2_rev', bits_combine, L. }
  intros ? ? <-. apply (sh_push F).
Qed.
Lemma sh_equal_all l r : sh (equal_all F l r) (equal_all F l r) eq.
Proof.
  unfold equal_all. eapply sh_bind; [apply sh_map1; intro; apply sh_equal|]. intros ? ? _. now apply sh_ret.
Qed.
Definition key_like (k k' : simvar F * simvar F * simvar F) : Prop :=
  sv_like (fst (fst k)) (fst (fst k')) /\ sv_like (snd (fst k)) (snd (fst k')) /\ sv_like (snd k) (snd k').
Lemma rsh_link pk sk (w w' : fold_witness F K) : rsh (link_keys F K pk sk w) (link_keys F K pk sk w') key_like.
Proof.
  unfold link_keys. eapply rsh_bind; [apply rsh_require|]. intros ? ? [L1 L2].
  apply Nat.eqb_eq in L1. apply Nat.eqb_eq in L2.
  eapply rsh_bind; [apply rsh_lift, sh_check_keys; congruence|]. intros kb ? <-.
  eapply rsh_bind; [apply rsh_witness|]. intros x x' [X1 X2]. eapply rsh_bind; [apply rsh_witness|]. intros y y' [Y1 Y2].
  eapply rsh_bind; [apply rsh_witness|]. intros s s' [S1 S2]. rewrite <- X2, <- Y2, <- S2.
  eapply rsh_bind; [apply rsh_require|]. intros ? ? _. eapply rsh_bind; [apply rsh_require|]. intros ? ? _.
  eapply rsh_bind; [apply rsh_lift, sh_equal_all|]. intros ? ? _. eapply rsh_bind; [apply rsh_lift, sh_equal_all|]. intros ? ? _.
  apply rsh_ret. now repeat split.
Qed.
Definition sch_like (v v' : schnorr_v F) : Prop :=
  sv_like (v_l1 F v) (v_l1 F v') /\ sv_like (v_l2 F v) (v_l2 F v') /\ sv_like (v_b0 F v) (v_b0 F v') /\
  sv_like (v_b1 F v) (v_b1 F v') /\ sv_like (v_b2 F v) (v_b2 F v') /\ sv_like (v_rx F v) (v_rx F v') /\
  sv_like (v_ry F v) (v_ry F v') /\ sv_like (v_rs F v) (v_rs F v') /\ sv_like (v_resp F v) (v_resp F v').
Lemma rsh_schnorr rx ry rs resp b l rx' ry' rs' resp' b' l' :
  rsh (alloc_schnorr F K rx ry rs resp b l) (alloc_schnorr F K rx' ry' rs' resp' b' l') sch_like.
Proof.
  unfold alloc_schnorr. do 5 (eapply rsh_bind; [apply rsh_lift, sh_input|]; intros ? ? ?).
  do 3 (eapply rsh_bind; [apply rsh_witness|]; intros ? ? [? _]).
  eapply rsh_bind; [apply rsh_lift, sh_input|]. intros ? ? ?. apply rsh_ret. repeat split; assumption.
Qed.
Lemma rsh_equation x y s v x' y' s' v' : sv_like x x' -> sv_like y y' -> sv_like s s' -> sch_like v v' ->
  rsh (schnorr_equation F x y s v) (schnorr_equation F x' y' s' v') eq.
Proof.
  intros X Y S (L1 & L2 & B0 & B1 & B2 & RX & RY & RS & RE). unfold schnorr_equation.
  eapply rsh_bind; [apply rsh_lift, sh_var_mul; assumption|]. intros m0 m0' M0.
  eapply rsh_bind; [apply rsh_lift; eapply sh_bind; [apply sh_var_mul; assumption|]; intros; apply sh_mul_add; eassumption|]. intros m1 m1' M1.
  eapply rsh_bind; [apply rsh_lift; eapply sh_bind; [apply sh_var_mul; assumption|]; intros; apply sh_mul_add; eassumption|]. intros m2 m2' M2.
  eapply rsh_bind; [apply rsh_lift; eapply sh_bind; [apply sh_var_mul; assumption|]; intros; apply sh_mul_add; eassumption|]. intros m3 m3' M3.
  eapply rsh_bind; [apply rsh_lift; eapply sh_bind; [apply sh_var_mul; assumption|]; intros; apply sh_mul_add; eassumption|]. intros m4 m4' M4.
  eapply rsh_bind; [apply rsh_var_sub; assumption|]. intros r r' R.
  eapply rsh_bind; [apply rsh_mul_sub; assumption|]. intros d d' D. now apply rsh_enforce.
Qed.
Lemma sh_compress l : sh (compress_cs F l) (compress_cs F l) eq.
Proof.
  apply sh_map1. intro ch. unfold compress_chunk. eapply sh_bind; [apply sh_lc|]. intros o ? <-.
  destruct (Nat.eqb _ 5); [apply sh_lc|now apply sh_ret].
Qed.
Lemma rsh_absorb : forall n l, (length l <= n)%nat -> forall h, rsh (absorb_cs F P e h l) (absorb_cs F P e h l) eq.
Proof.
  induction n as [|n IH]; intros l L h.
  - destruct l; [now apply rsh_ret|cbn in L; lia].
  - destruct l as [|a [|b [|c l]]]; cbn [absorb_cs]; [now apply rsh_ret|intros ? ? ? ? ? ? _ H; discriminate H..|].
    eapply rsh_bind; [apply rsh_lift, sh_hash|]. intros ? ? <-. apply IH. cbn in L. lia.
Qed.
Lemma rsh_sponge l : rsh (sponge_cs F P e l) (sponge_cs F P e l) eq.
Proof.
  destruct l as [|a [|b [|c [|d l]]]]; try (intros ? ? ? ? ? ? _ H; discriminate H). cbn [sponge_cs].
  eapply rsh_bind; [apply rsh_lift, sh_hash|]. intros ? ? <-. eapply rsh_absorb. reflexivity.
Qed.
Lemma rsh_comm d d' rhos rhos' r c r' c' : Forall2 sv_like (d ++ rhos) (d' ++ rhos') ->
  rsh (check_comm F P e d rhos r c) (check_comm F P e d' rhos' r' c') eq.
Proof.
  intro H. unfold check_comm.
  assert (E : flat_map svar (d ++ rhos) = flat_map svar (d' ++ rhos')).
  { revert H. generalize (d ++ rhos), (d' ++ rhos'). induction 1 as [|a a' l l' Ha _ IH]; [reflexivity|].
    cbn [flat_map]. now rewrite Ha, IH. }
  rewrite E. eapply rsh_bind; [apply rsh_lift, sh_compress|]. intros ? ? <-.
  eapply rsh_bind; [apply rsh_lift, sh_new|]. intros ? ? <-. eapply rsh_bind; [apply rsh_lift, sh_new|]. intros ? ? <-.
  eapply rsh_bind; [apply rsh_sponge|]. intros ? ? <-. eapply rsh_bind; [apply rsh_lift, sh_equal|]. intros ? ? _. now apply rsh_ret.
Qed.
Lemma rsh_body pk sk (w w' : fold_witness F K) : rsh (fold_body F K P e pk sk w) (fold_body F K P e pk sk w') eq.
Proof.
  unfold fold_body.
  destruct (fw_rhos w) as [|rx [|ry [|rs rh]]]; try (intros ? ? ? ? ? ? _ H; discriminate H).
  destruct (combined_response K (fw_resp w) _) as [resp| |]; try (intros ? ? ? ? ? ? _ H; discriminate H).
  destruct (fw_rhos w') as [|rx' [|ry' [|rs' rh']]]; try (intros ? ? ? ? ? ? _ _ H; discriminate H).
  destruct (combined_response K (fw_resp w') _) as [resp'| |]; try (intros ? ? ? ? ? ? _ _ H; discriminate H).
  eapply rsh_bind; [apply rsh_link|]. intros [[x y] s] [[x' y'] s'] (X & Y & S). cbn [fst snd] in X, Y, S.
  eapply rsh_bind; [apply rsh_schnorr|]. intros v v' V. eapply rsh_bind; [now apply rsh_equation|]. intros ? ? _.
  destruct V as (L1 & L2 & B0 & B1 & B2 & RX & RY & RS & RE).
  eapply rsh_bind; [apply rsh_comm; cbn [app]; repeat constructor; assumption|]. intros cv ? <-. apply rsh_ret.
  now rewrite L1, L2, B0, B1, B2, RE.
Qed.
Lemma rsh_folding pk sk (w w' : fold_witness F K) :
  rsh (prove_address_folding_in_cs F K P e pk sk w) (prove_address_folding_in_cs F K P e pk sk w') eq.
Proof.
  eapply rsh_bind; [apply rsh_body|]. intros l ? <-. apply rsh_lift. unfold publish.
  eapply sh_bind; [apply sh_map1; intro; apply sh_push|]. intros ? ? _. now apply sh_ret.
Qed.
End AfoldS.
End ShapeF.
