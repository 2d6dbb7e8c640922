(** Which gates the simulated arithmetic and the key checks add. *)
From Coq Require Import List ZArith NArith Bool Lia ZifyBool ZifyNat.
From Verif Require Import Base Field PField UtilsModel TurboModel TurboSpec TurboProofs TurboKit TurboEmit Power RescueModel RescueProofs MixModel MixLemmas
  AxfrModel AxfrProofs FoldModel SimModel AfoldModel.
Import ListNotations.
Local Open Scope F_scope.

Section Emit.
Context (F K : PField).
Implicit Types (c : tcs F).

(** ** Gadgets that may panic *)
Definition remits (G : gate F -> Prop) {A} (m : CR F A) (Q : A -> Prop) : Prop :=
  forall c a c', (2 <= nvars c)%nat -> m c = Ok (a, c') ->
  exists gs, grev c' = gs ++ grev c /\ Forall G gs /\ (nvars c <= nvars c')%nat /\ Q a.
Lemma re_lift G {A} (m : CS F A) Q : emits F G m Q -> remits G (lift m) Q.
Proof.
  intros H c a c' Hc E. unfold lift in E. apply Ok_inj in E. destruct (H c Hc) as (gs & H1 & H2 & H3 & H4). rewrite E in *. exists gs. auto.
Qed.
Lemma re_bind G {A B} (m : CR F A) (f : A -> CR F B) Q1 Q :
  remits G m Q1 -> (forall a, Q1 a -> remits G (f a) Q) -> remits G (rbnd m f) Q.
Proof.
  intros Hm Hf c b c' Hc E. unfold rbnd in E. destruct (m c) as [[a c1]| |] eqn:E1; try discriminate.
  destruct (Hm c a c1 Hc E1) as (g1 & H1 & H2 & H3 & H4). destruct (Hf a H4 c1 b c' ltac:(lia) E) as (g2 & H5 & H6 & H7 & H8).
  exists (g2 ++ g1). rewrite H5, H1, app_assoc. split; [reflexivity|]. split; [now apply Forall_app|]. split; [lia|exact H8].
Qed.
Lemma re_ret G {A} (a : A) (Q : A -> Prop) : Q a -> remits G (rret a) Q.
Proof. intros H c b c' Hc E. apply Ok_inj in E. injection E as <- <-. exists []. auto. Qed.
Lemma re_res G {A} (r : res A) : remits G (of_res r) (fun a => r = Ok a).
Proof.
  intros c a c' Hc E. unfold of_res, rmap in E. destruct r; try discriminate. apply Ok_inj in E. injection E as <- <-. exists []. auto.
Qed.
Lemma re_require G b : remits G (require b) (fun _ => b = true).
Proof. intros c a c' Hc E. unfold require in E. destruct b; [|discriminate]. apply Ok_inj in E. injection E as <- <-. exists []. auto. Qed.
Lemma re_weak G {A} (m : CR F A) (Q Q' : A -> Prop) : remits G m Q -> (forall a, Q a -> Q' a) -> remits G m Q'.
Proof. intros H HQ c a c' Hc E. destruct (H c a c' Hc E) as (gs & H1 & H2 & H3 & H4). exists gs. auto. Qed.
Lemma re_panic G {A} (Q : A -> Prop) : remits G (fun _ => Panic) Q.
Proof. intros c a c' Hc E. discriminate. Qed.

Section Wires.
Context (ok : nat -> Prop) (ok0 : ok 0%nat) (ok2 : forall i, (2 <= i)%nat -> ok i).
Notation pl := (plain F ok).
Notation em := (emits F pl).
Notation rem := (remits pl).
Ltac gate := repeat split; try assumption; try reflexivity; auto.
Lemma e_nth l i : Forall ok l -> ok (nth i l 0%nat).
Proof.
  intros H. destruct (Nat.lt_ge_cases i (length l)) as [L|L].
  - rewrite Forall_forall in H. apply H. now apply nth_In.
  - rewrite nth_overflow by exact L. exact ok0.
Qed.
Lemma e_push1 x (g : nat -> gate F) : (forall o, ok o -> pl (g o)) ->
  em (bnd (new_variable F x) (fun o => bnd (push_gate F (g o)) (fun _ => ret o))) ok.
Proof.
  intros H. eapply eb; [apply e_new|]. intros o Ho. eapply eb; [apply e_push, H; auto|]. intros _ _. apply er. auto.
Qed.
Lemma e_mapM' {A B} (f : A -> CS F B) (Q : B -> Prop) l : (forall a, em (f a) Q) -> em (RescueModel.mapM F f l) (fun bs => Forall Q bs).
Proof. intros H. eapply ew; [apply e_mapM; exact H|]. intros a [_ Ha]. exact Ha. Qed.
Definition oks (v : simvar F) : Prop := Forall ok (svar v).
Definition okm (v : simulvar F) : Prop := Forall ok (mvar v).

Lemma re_var_sub P a b : oks a -> oks b -> rem (var_sub P a b) oks.
Proof.
  intros Ha Hb. unfold var_sub. eapply re_bind; [apply re_res|]. intros v _. apply re_lift.
  eapply eb; [apply (e_mapM' _ ok)|intros l Hl; now apply er]. intros i. apply e_push1. intros o Ho. gate; now apply e_nth.
Qed.
Lemma e_mac_loop (a b : simvar F) i ls : oks a -> oks b -> forall prior x, ok prior -> em (mac_loop F a b i ls prior x) ok.
Proof.
  intros Ha Hb. induction ls as [|l ls IH]; intros prior x Hp; cbn [mac_loop]; [now apply er|]. cbn zeta.
  eapply eb; [apply e_new|]. intros o Ho. eapply eb; [apply e_push; gate; now apply e_nth|]. intros _ _. apply IH. auto.
Qed.
Lemma e_var_mul (a b : simvar F) : oks a -> oks b -> em (var_mul a b) okm.
Proof.
  intros Ha Hb. unfold var_mul. eapply eb; [apply (e_mapM' _ ok)|intros l Hl; now apply er]. intros i. now apply e_mac_loop.
Qed.
Lemma e_alloc_input (v : sim F) : em (alloc_input v) oks.
Proof.
  unfold alloc_input. eapply eb; [apply (e_mapM' _ ok)|intros l Hl; now apply er]. intros i. eapply ew; [apply e_new|auto].
Qed.
Lemma re_alloc_witness P (v : sim F) : rem (alloc_witness P v) (fun ob => oks (fst ob) /\ Forall ok (snd ob)).
Proof.
  unfold alloc_witness. eapply re_bind; [apply re_require|]. intros _ _. apply re_lift.
  eapply eb; [apply (e_mapM' _ (fun p => ok (fst p) /\ Forall ok (snd p)))|].
  - intros i. eapply eb; [apply e_new|]. intros o Ho. eapply eb; [apply (e_range F ok ok0 ok2); auto|]. intros b Hb. apply er. auto.
  - intros l Hl. apply er. cbn [fst snd]. unfold oks. cbn [svar]. split.
    + induction Hl as [|p l [H _] _ IH]; cbn [map]; constructor; auto.
    + induction Hl as [|p l [_ H] _ IH]; cbn [flat_map]; [constructor|]. now apply Forall_app.
Qed.
Lemma e_mulvar_add (a b : simulvar F) : okm a -> okm b -> em (mulvar_add a b) okm.
Proof.
  intros Ha Hb. unfold mulvar_add. cbn zeta. eapply eb; [apply (e_mapM' _ ok)|intros l Hl; now apply er].
  intros i. apply e_push1. intros o Ho. gate; now apply e_nth.
Qed.
Lemma skipn_ok n l : Forall ok l -> Forall ok (skipn n l).
Proof. intros H. rewrite <- (firstn_skipn n l) in H. apply Forall_app in H. apply H. Qed.
Lemma re_mulvar_sub P (a : simulvar F) (b : simvar F) : okm a -> oks b -> rem (mulvar_sub P a b) okm.
Proof.
  intros Ha Hb. unfold mulvar_sub. eapply re_bind; [apply re_res|]. intros v _. apply re_lift.
  eapply eb; [apply (e_mapM' _ ok)|].
  - intros i. apply e_push1. intros o Ho. gate; now apply e_nth.
  - intros l Hl. apply er. unfold okm. cbn [mvar]. apply Forall_app. split; [exact Hl|now apply skipn_ok].
Qed.
Lemma e_rk_loop rl ks i n : Forall ok ks -> forall ls, (length ls <= n)%nat -> forall acc, ok acc -> em (rk_loop F rl ks i ls acc) ok.
Proof.
  intros Hk. induction n as [|n IH]; intros ls Hn acc Ha.
  { destruct ls; [|cbn in Hn; lia]. now apply er. }
  destruct ls as [|a [|b [|c ls]]]; cbn [rk_loop].
  - now apply er.
  - apply (e_lc F ok ok2); auto; now apply e_nth.
  - apply (e_lc F ok ok2); auto; now apply e_nth.
  - eapply eb; [apply (e_lc F ok ok2); auto; now apply e_nth|]. intros o Ho. apply IH; [cbn in Hn; lia|exact Ho].
Qed.
Lemma e_group_vars P l : Forall ok l -> forall r, Forall ok r -> em (group_vars F P l r) (fun ps => Forall (fun p => ok (fst p) /\ ok (snd p)) ps).
Proof.
  assert (G : forall n l, (length l <= n)%nat -> Forall ok l -> forall r, Forall ok r ->
    em (group_vars F P l r) (fun ps => Forall (fun p => ok (fst p) /\ ok (snd p)) ps)).
  { induction n as [|n IH]; intros [|a [|b l']] Hn Hl r Hr; cbn in Hn; try lia; cbn [group_vars]; try (apply er; constructor).
    - destruct r as [|a' [|]]; apply er; repeat constructor; cbn [fst snd]; [inversion Hl|inversion Hr]; assumption.
    - destruct r as [|a' [|b' r]]; try (apply er; constructor).
      inversion Hl as [|? ? A1 Hl1]; inversion Hl1 as [|? ? A2 Hl2]; inversion Hr as [|? ? A3 Hr1]; inversion Hr1 as [|? ? A4 Hr2]; subst.
      unfold group_var. eapply eb; [apply (e_lc F ok ok2); auto|]. intros o Ho. eapply eb; [apply (e_lc F ok ok2); auto|]. intros o' Ho'.
      eapply eb; [apply (IH l'); [lia|assumption|assumption]|]. intros os Hos. apply er. constructor; auto. }
  intros Hl r Hr. eapply G; eauto.
Qed.
Lemma e_carry_loop P gs : Forall (fun g => ok (fst (snd g)) /\ ok (snd (snd g))) gs -> forall cin cv a, ok cv -> em (carry_loop F P gs cin cv a) (fun _ => True).
Proof.
  induction 1 as [|[[[lg rg] n] [lv rv]] gs [H1 H2] _ IH]; intros cin cv a Hc; cbn [carry_loop]; [now apply er|]. cbn zeta. cbn [fst snd] in *.
  eapply eb; [apply e_new|]. intros o Ho. eapply eb; [apply e_push; gate|]. intros _ _.
  eapply (eb _ _ _ _ (fun _ => True)).
  - destruct gs; [apply (e_const F ok); auto|]. eapply eb; [apply (e_range F ok ok0 ok2); auto|]. intros. now apply er.
  - intros. apply IH. auto.
Qed.
Lemma re_enforce_zero P (m : simulvar F) : okm m -> rem (var_enforce_zero P m) (fun _ => True).
Proof.
  intros Hm. unfold var_enforce_zero. eapply re_bind; [apply re_require|]. intros _ _. eapply re_bind; [apply re_res|]. intros x _. cbn zeta.
  eapply re_bind; [apply re_require|]. intros _ _. apply re_lift. unfold enforce_zero_gates.
  eapply eb; [apply (e_mapM' _ ok)|].
  { intros i. eapply eb; [apply e_new|]. intros o Ho. eapply eb; [apply (e_range F ok ok0 ok2); auto|]. intros b _. apply er. auto. }
  intros ks Hk. eapply eb; [apply (e_mapM' _ ok)|]. { intros i. eapply (e_rk_loop _ _ _ (length (lefts i))); auto. }
  intros rks Hr. eapply eb; [apply e_group_vars; [exact Hm|exact Hr]|]. intros vs Hv. apply e_carry_loop; [|exact ok0].
  generalize (zip_groups F P (mlimbs (mv m)) (convolve F (map fofZ (modulus_limbs P)) (limbs (sim_from F P (x / modulus P))))).
  induction Hv as [|v vs Hv _ IH]; intros [|g gs]; cbn [combine]; constructor; [exact Hv|apply IH].
Qed.

(** ** Keys *)
Lemma e_compare_loop l : Forall (fun t => ok (fst (fst t))) l -> forall vs vd s d, ok vs -> ok vd ->
  em (compare_loop F l vs vd s d) (fun p => ok (fst p) /\ ok (snd p)).
Proof.
  induction 1 as [|[[v b] m] l Hv _ IH]; intros vs vd s d Hs Hd; cbn [compare_loop]; [now apply er|]. cbn [fst] in Hv.
  destruct m; cbn zeta.
  - eapply eb; [apply e_new|]. intros o Ho. eapply eb; [apply e_push; gate|]. intros _ _.
    eapply eb; [apply e_new|]. intros o' Ho'. eapply eb; [apply e_push; gate|]. intros _ _. apply IH; auto.
  - eapply eb; [apply e_new|]. intros o Ho. eapply eb; [apply e_push; gate|]. intros _ _. apply IH; auto.
Qed.
Lemma e_compare_bits vars bits m : Forall ok vars -> em (compare_bits F vars bits m) (fun _ => True).
Proof.
  intros H. unfold compare_bits. eapply eb; [apply e_compare_loop; [|exact ok0|exact ok0]|].
  - apply Forall_rev. revert bits m. induction H as [|v vs Hv _ IH]; intros [|b bits] [|m ms]; cbn [combine]; constructor; auto.
  - intros p [H1 H2]. eapply ew; [apply e_push; gate|auto].
Qed.
Lemma e_check_keys pk sk skb m : (let '(p0, p1, p2) := pk in ok p0 /\ ok p1 /\ ok p2) -> ok (fst sk) -> ok (snd sk) ->
  em (check_keys F pk sk skb m) (fun r => Forall ok (fst r) /\ Forall ok (snd r)).
Proof.
  destruct pk as [[p0 p1] p2]. intros (H0 & H1 & H2) K0 K1. unfold check_keys.
  eapply eb; [apply (e_range F ok ok0 ok2); exact H0|]. intros b0 B0. eapply eb; [apply (e_range F ok ok0 ok2); exact H1|]. intros b1 B1.
  eapply eb; [apply (e_range F ok ok0 ok2); exact H2|]. intros b2 B2. eapply eb; [apply (e_range F ok ok0 ok2); exact K0|]. intros c0 C0.
  eapply eb; [apply (e_range F ok ok0 ok2); exact K1|]. intros c1 C1.
  eapply eb; [apply e_compare_bits, Forall_app; auto|]. intros _ _. apply er. cbn [fst snd]. rewrite !Forall_app. auto.
Qed.
Lemma e_equal_all l r : Forall ok l -> Forall ok r -> em (equal_all F l r) (fun _ => True).
Proof.
  intros Hl Hr. unfold equal_all. eapply (eb _ _ _ _ (fun _ => True)); [|intros; now apply er].
  revert r Hr. induction Hl as [|a l Ha _ IH]; intros r Hr; [now apply er|]. destruct r as [|b r]; [now apply er|]. inversion Hr; subst.
  cbn [combine RescueModel.mapM fst snd]. eapply eb; [apply (e_equal F ok ok0); assumption|]. intros u _. eapply eb; [now apply IH|]. intros. now apply er.
Qed.

(** ** The folding body *)
Context (P : rescue_instance F) (e : N).
Definition okpk (pk : pk_v) : Prop := let '(p0, p1, p2) := pk in ok p0 /\ ok p1 /\ ok p2.
Definition oksk (sk : sk_v) : Prop := ok (fst sk) /\ ok (snd sk).
Lemma re_link_keys pk sk (w : fold_witness F K) : okpk pk -> oksk sk ->
  rem (link_keys F K pk sk w) (fun k => oks (fst (fst k)) /\ oks (snd (fst k)) /\ oks (snd k)).
Proof.
  intros Hp [Hs1 Hs2]. unfold link_keys. eapply re_bind; [apply re_require|]. intros _ _.
  eapply re_bind; [apply re_lift, e_check_keys; [exact Hp|exact Hs1|exact Hs2]|]. intros kb [B1 B2].
  eapply re_bind; [apply re_alloc_witness|]. intros x [X1 X2]. eapply re_bind; [apply re_alloc_witness|]. intros y [Y1 Y2].
  eapply re_bind; [apply re_alloc_witness|]. intros s [S1 S2]. eapply re_bind; [apply re_require|]. intros _ _. eapply re_bind; [apply re_require|]. intros _ _.
  eapply re_bind; [apply re_lift, e_equal_all; [apply Forall_app; auto|exact B1]|]. intros _ _.
  eapply re_bind; [apply re_lift, e_equal_all; [exact S2|exact B2]|]. intros _ _. apply re_ret. cbn [fst snd]. auto.
Qed.
Definition okv (v : schnorr_v F) : Prop := oks (v_l1 F v) /\ oks (v_l2 F v) /\ oks (v_b0 F v) /\ oks (v_b1 F v) /\ oks (v_b2 F v) /\
  oks (v_rx F v) /\ oks (v_ry F v) /\ oks (v_rs F v) /\ oks (v_resp F v).
Lemma re_alloc_schnorr rx ry rs resp beta lambda : rem (alloc_schnorr F K rx ry rs resp beta lambda) okv.
Proof.
  unfold alloc_schnorr. do 5 (eapply re_bind; [apply re_lift, e_alloc_input|]; intros ? ?).
  do 3 (eapply re_bind; [apply re_alloc_witness|]; intros ? [? _]).
  eapply re_bind; [apply re_lift, e_alloc_input|]; intros ? ?. apply re_ret. unfold okv. cbn. auto 12.
Qed.
Lemma e_mul_add a b m : oks a -> oks b -> okm m -> em (bnd (var_mul a b) (fun x => mulvar_add x m)) okm.
Proof. intros Ha Hb Hm. eapply eb; [now apply e_var_mul|]. intros x Hx. now apply e_mulvar_add. Qed.
Lemma re_schnorr_equation x y s v : oks x -> oks y -> oks s -> okv v -> rem (schnorr_equation F x y s v) (fun _ => True).
Proof.
  intros Hx Hy Hs (H1 & H2 & H3 & H4 & H5 & H6 & H7 & H8 & H9). unfold schnorr_equation.
  eapply re_bind; [apply re_lift, e_var_mul; assumption|]. intros m0 M0.
  do 4 (eapply re_bind; [apply re_lift, e_mul_add; eassumption|]; intros ? ?).
  eapply re_bind; [apply re_var_sub; assumption|]. intros rhs Hr. eapply re_bind; [apply re_mulvar_sub; eassumption|]. intros d Hd.
  now apply re_enforce_zero.
Qed.
Lemma chunks_ok n l : Forall ok l -> Forall (Forall ok) (chunks n l).
Proof.
  unfold chunks. generalize (length l). intros f. revert l. induction f as [|f IH]; intros l H; cbn [chunks_fuel]; [constructor|].
  destruct l as [|a l]; [constructor|]. constructor; [|apply IH; now apply skipn_ok].
  rewrite <- (firstn_skipn n (a :: l)) in H. apply Forall_app in H. apply H.
Qed.
Lemma e_compress l : Forall ok l -> em (compress_cs F l) (fun os => Forall ok os).
Proof.
  intros H. unfold compress_cs. pose proof (chunks_ok num_limbs_compressed l H) as HC. revert HC. generalize (chunks num_limbs_compressed l). intros cs HC.
  induction HC as [|ch cs Hc _ IH]; cbn [RescueModel.mapM]; [apply er; constructor|].
  eapply (eb _ _ _ _ ok).
  - unfold compress_chunk. eapply eb; [apply (e_lc F ok ok2); now apply e_nth|]. intros o Ho.
    destruct (Nat.eqb _ _); [apply (e_lc F ok ok2); auto; now apply e_nth|now apply er].
  - intros o Ho. eapply eb; [exact IH|]. intros os Hos. apply er. now constructor.
Qed.
Lemma re_absorb l : forall h, Forall ok l -> ok h -> rem (absorb_cs F P e h l) ok.
Proof.
  assert (G : forall n l, (length l <= n)%nat -> forall h, Forall ok l -> ok h -> rem (absorb_cs F P e h l) ok).
  { induction n as [|n IH]; intros l' Hn h Hl Hh.
    { destruct l'; [|cbn in Hn; lia]. now apply re_ret. }
    destruct l' as [|a [|b [|c l']]]; cbn [absorb_cs]; try apply re_panic; [now apply re_ret|].
    inversion Hl as [|? ? A1 Hl1]; inversion Hl1 as [|? ? A2 Hl2]; inversion Hl2 as [|? ? A3 Hl3]; subst.
    eapply re_bind; [apply re_lift, (e_hash F P e ok ok0 ok2); assumption|]. intros h' Hh'. apply IH; [cbn in Hn; lia|assumption|assumption]. }
  intros h. now apply (G (length l)).
Qed.
Lemma re_sponge l : Forall ok l -> rem (sponge_cs F P e l) ok.
Proof.
  intros H. destruct l as [|a [|b [|c [|d l]]]]; cbn [sponge_cs]; try apply re_panic.
  repeat match goal with H : Forall ok (_ :: _) |- _ => inversion H; clear H; subst end.
  eapply re_bind; [apply re_lift, (e_hash F P e ok ok0 ok2); assumption|]. intros h Hh. now apply re_absorb.
Qed.
Lemma flat_ok l : Forall oks l -> Forall ok (flat_map svar l).
Proof. induction 1 as [|v l H _ IH]; cbn [flat_map]; [constructor|]. now apply Forall_app. Qed.
Lemma re_check_comm data rhos r comm : Forall oks data -> Forall oks rhos -> rem (check_comm F P e data rhos r comm) ok.
Proof.
  intros Hd Hr. unfold check_comm. eapply re_bind; [apply re_lift, e_compress, flat_ok, Forall_app; auto|]. intros cl Hcl.
  eapply re_bind; [apply re_lift, e_new|]. intros rv Hrv. eapply re_bind; [apply re_lift, e_new|]. intros cv Hcv.
  eapply re_bind; [apply re_sponge|].
  - unfold resized. apply Forall_app. split; [apply Forall_app; split; [exact Hcl|constructor; [auto|constructor]]|].
    apply Forall_forall. intros z Hz. apply repeat_spec in Hz. now subst.
  - intros h Hh. eapply re_bind; [apply re_lift, (e_equal F ok ok0); auto|]. intros _ _. apply re_ret. auto.
Qed.
Lemma re_fold_body pk sk w : okpk pk -> oksk sk -> rem (fold_body F K P e pk sk w) (fun l => Forall ok l).
Proof.
  intros Hp Hs. unfold fold_body. destruct (fw_rhos w) as [|rx [|ry [|rs rest]]]; try apply re_panic.
  destruct (combined_response K (fw_resp w) (fw_lambda w)) as [resp| |]; try apply re_panic.
  eapply re_bind; [apply re_link_keys; eassumption|]. intros [[x y] s] (Hx & Hy & Hs'). cbn [fst snd] in *.
  eapply re_bind; [apply re_alloc_schnorr|]. intros v Hv. eapply re_bind; [apply re_schnorr_equation; assumption|]. intros _ _.
  destruct Hv as (H1 & H2 & H3 & H4 & H5 & H6 & H7 & H8 & H9).
  eapply re_bind; [apply re_check_comm; repeat constructor; assumption|]. intros cv Hcv. apply re_ret.
  constructor; [exact Hcv|]. rewrite !Forall_app. auto 8.
Qed.
End Wires.
End Emit.
