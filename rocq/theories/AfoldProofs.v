(** What the constraints of address folding say. *)
From Coq Require Import List ZArith NArith Bool Lia ZifyBool ZifyNat Field.
From Verif Require Import Base Field PField UtilsModel TurboModel TurboSpec TurboProofs TurboHonest TurboKit TurboEmit Power RescueModel RescueSpec RescueProofs
  MixModel MixLemmas AxfrModel AxfrProofs FoldModel FoldProofs FoldLemmas SimModel SimSpec SimProofs SimZero SimCircuit SimHonest SimAlloc AfoldModel AfoldEmit.
Import ListNotations.
Local Open Scope Z_scope.

Section Afold.
Context (F K : PField) (Hp : 2 ^ 254 < pchar F) (P : rescue_instance F) (HP : rescue_ok F P) (e : N) (He : exp_inv F 5 e).
Add Field Fafold : (f_th F).
Local Open Scope F_scope.
Implicit Types (w : nat -> F).
Notation S := secq256k1.
Notation rsound := (rsound F).
Notation bitsof x n := (map (bit F x) (seq 0 n)).
Let Hp' : (2 ^ 254 <= pchar F)%Z. Proof. lia. Qed.
Let HS : facts S. Proof. apply valid_facts. now right. Qed.

(** ** Bits *)
Lemma b2f_inj x y : b2f F x = b2f F y -> x = y.
Proof.
  destruct x, y; cbn; auto; intros H; exfalso; apply (F_1_neq_0 (f_th F)); [exact H|now symmetry].
Qed.
Lemma bits_inj x y n : (0 <= x < 2 ^ Z.of_nat n)%Z -> (0 <= y < 2 ^ Z.of_nat n)%Z -> bitsof x n = bitsof y n -> x = y.
Proof.
  intros Hx Hy E. rewrite <- (tbits_val x n Hx), <- (tbits_val y n Hy). do 2 f_equal. unfold tbits.
  revert E. generalize (seq 0 n). induction l as [|i l IH]; cbn [map]; [reflexivity|]. intros E. injection E as E1 E2.
  f_equal; [now apply b2f_inj|now apply IH].
Qed.
Lemma bits_f2 w b z n : map w b = bitsof z n -> Forall2 (fun i x => w i = b2f F x) b (tbits z n).
Proof.
  unfold tbits. revert b. generalize (seq 0 n). induction l as [|i l IH]; intros [|v b] E; cbn [map] in E; try discriminate; constructor.
  - now injection E.
  - apply IH. now injection E.
Qed.
Lemma equal_all_sound l : forall r, sound (equal_all F l r) (fun w _ => w 0%nat = 0 -> length l = length r -> map w l = map w r).
Proof.
  intros r. unfold equal_all.
  eapply (sb F _ _ (fun w _ => w 0%nat = 0 -> length l = length r -> map w l = map w r)); [|intros u; apply sr; auto].
  revert r. induction l as [|a l IH]; intros [|b r]; cbn [combine RescueModel.mapM]; try (apply sr; intros; discriminate || reflexivity).
  cbn [fst snd]. eapply sb; [apply equal_sound|]. intros u. eapply sb; [apply IH|]. intros us. apply sr. intros w H1 H2 W0 L. cbn [map].
  rewrite W0 in H2. symmetry in H2. apply (proj1 (fsub_0 F _ _)) in H2. rewrite H2. f_equal. apply H1; [exact W0|now injection L].
Qed.
Lemma check_keys_bits p0 p1 p2 sk skb modulus : length skb = 32%nat -> length modulus = 32%nat -> Forall (fun b => b < 256)%N modulus ->
  sound (check_keys F (p0, p1, p2) sk skb modulus) (fun w kb =>
    (toZ (w p0) < 2 ^ 248)%Z /\ (toZ (w p1) < 2 ^ 248)%Z /\ (toZ (w p2) < 2 ^ 16)%Z /\
    (toZ (w (fst sk)) < 2 ^ 248)%Z /\ (toZ (w (snd sk)) < 2 ^ 8)%Z /\
    map w (fst kb) = bitsof (toZ (w p0) + 2 ^ 248 * (toZ (w p1) + 2 ^ 248 * toZ (w p2)))%Z 512 /\
    map w (snd kb) = bitsof (toZ (w (fst sk)) + 2 ^ 248 * toZ (w (snd sk)))%Z 256 /\
    (w 0%nat = 0 -> (toZ (w (fst sk)) + 2 ^ 248 * toZ (w (snd sk)) < Z.of_N (le_value modulus))%Z)).
Proof.
  intros L1 L2 HM. unfold check_keys.
  eapply sb; [apply (range_sound F Hp'); lia|]. intros b0. eapply sb; [apply (range_sound F Hp'); lia|]. intros b1.
  eapply sb; [apply (range_sound F Hp'); lia|]. intros b2. eapply sb; [apply (range_sound F Hp'); lia|]. intros c0.
  eapply (sb F _ _ (fun w b => (0 <= toZ (w (snd sk)) < 2 ^ Z.of_nat 8)%Z /\ map w b = bitsof (toZ (w (snd sk))) 8)); [apply (range_sound F Hp'); lia|]. intros c1.
  destruct (Nat.eq_dec (length (c0 ++ c1)) 256) as [LL|NL].
  2:{ intros c w HSat. rewrite bnd_eq in HSat. cbn [ret snd] in HSat.
      assert (HP0 : sound (compare_bits F (c0 ++ c1) (bits_of_bytes skb) (bits_of_bytes modulus)) (fun _ _ => True)).
      { unfold compare_bits. eapply sb; [apply compare_loop_sound|]. intros o. eapply sw; [apply sound_push|]. auto. }
      destruct (HP0 c w HSat) as [S1 _]. split; [exact S1|]. intros [_ K1] [_ K2].
      exfalso. apply NL. rewrite app_length. apply (f_equal (@length F)) in K1, K2. rewrite !map_length, !seq_length in K1, K2. lia. }
  eapply sb; [apply compare_bits_sound; rewrite bits_of_bytes_len; lia|]. intros ?. apply sr. cbn [fst snd].
  intros w HC [G1 F1] [G0 F0] [G2 F2] [G3 F3] [G4 F4].
  repeat (split; [apply G4 || apply G3 || apply G2 || apply G1 || apply G0|]).
  split; [|split].
  - rewrite !map_app, F4, F3, F2. change 512%nat with (248 + (248 + 16))%nat.
    change (2 ^ 248)%Z with (2 ^ Z.of_nat 248)%Z. now rewrite !bits_app by assumption.
  - rewrite !map_app, F1, F0. change 256%nat with (248 + 8)%nat. change (2 ^ 248)%Z with (2 ^ Z.of_nat 248)%Z. now rewrite bits_app by assumption.
  - intros H0. specialize (HC H0 _ (Forall2_app (bits_f2 _ _ _ _ F0) (bits_f2 _ _ _ _ F1))).
    rewrite join_val, bytes_bits in HC; assumption.
Qed.

(** ** Keys and simulated elements *)
Definition num w (v : simvar F) : Z := wnumber S w (svar v).
(** A range-checked element. *)
Definition wit w (v : simvar F) : Prop := leaf_ok F S w v /\ red (sv v) = ByOne /\ (0 <= num w v < 2 ^ 256)%Z.
Definition order : Z := Z.of_N (le_value secp256k1_order_bytes).
Definition vsk2 w (sk : sk_v) : Z := (toZ (w (fst sk)) + 2 ^ 248 * toZ (w (snd sk)))%Z.
Definition vpk3 w (pk : pk_v) : Z := let '(p0, p1, p2) := pk in (toZ (w p0) + 2 ^ 248 * (toZ (w p1) + 2 ^ 248 * toZ (w p2)))%Z.
Definition keyw w (pk : pk_v) (sk : sk_v) : Prop := let '(p0, p1, p2) := pk in
  (toZ (w p0) < 2 ^ 248)%Z /\ (toZ (w p1) < 2 ^ 248)%Z /\ (toZ (w p2) < 2 ^ 16)%Z /\ (toZ (w (fst sk)) < 2 ^ 248)%Z /\ (toZ (w (snd sk)) < 2 ^ 8)%Z.
Lemma wit_sound v : rsound (alloc_witness S v) (fun w ob => wit w (fst ob) /\ map w (snd ob) = bitsof (num w (fst ob)) 256).
Proof.
  eapply rs_weak; [apply (alloc_witness_sound F Hp' S v); now right|]. intros w ob (H1 & H2 & H3 & H4 & H5).
  change (total S) with 256%nat in *. unfold wit, num. rewrite H2. auto.
Qed.
Lemma link_keys_sound pk sk (fw : fold_witness F K) :
  rsound (link_keys F K pk sk fw) (fun w k => let '(x, y, s) := k in w 0%nat = 0 ->
    wit w x /\ wit w y /\ wit w s /\ keyw w pk sk /\
    vpk3 w pk = (num w x + 2 ^ 256 * num w y)%Z /\ vsk2 w sk = num w s /\ (num w s < order)%Z).
Proof.
  unfold link_keys. set (b := Nat.eqb _ _). destruct b eqn:Eb; [|intros c a c' E; discriminate E]. unfold b in Eb. clear b.
  apply Nat.eqb_eq in Eb. rewrite !bits_of_bytes_len in Eb. change (length secp256k1_order_bytes) with 32%nat in Eb.
  eapply rs_bind; [apply rs_require|]. intros [].
  destruct pk as [[p0 p1] p2].
  eapply rs_bind; [apply rs_lift, check_keys_bits; [lia|reflexivity|repeat constructor]|]. intros kb.
  eapply rs_bind; [apply wit_sound|]. intros x. eapply rs_bind; [apply wit_sound|]. intros y. eapply rs_bind; [apply wit_sound|]. intros s.
  eapply rs_bind; [apply rs_require|]. intros []. eapply rs_bind; [apply rs_require|]. intros [].
  eapply rs_bind; [apply rs_lift, equal_all_sound|]. intros []. eapply rs_bind; [apply rs_lift, equal_all_sound|]. intros [].
  apply rs_ret. intros w E2 E1 L2 L1 [Ws Bs] [Wy By] [Wx Bx] (R1 & R2 & R3 & R4 & R5 & B1 & B2 & Ho) _ W0.
  apply Nat.eqb_eq in L1, L2. specialize (E1 W0 L1). specialize (E2 W0 L2). rewrite map_app, Bx, By, B1 in E1. rewrite Bs, B2 in E2.
  assert (Ex : (num w (fst x) + 2 ^ 256 * num w (fst y))%Z = vpk3 w (p0, p1, p2)).
  { apply (bits_inj _ _ 512).
    - destruct Wx as (_ & _ & Wx), Wy as (_ & _ & Wy). change (2 ^ Z.of_nat 512)%Z with (2 ^ 256 * 2 ^ 256)%Z. nia.
    - unfold vpk3. pose proof (toZ_range F (w p0)). pose proof (toZ_range F (w p1)). pose proof (toZ_range F (w p2)).
      change (2 ^ Z.of_nat 512)%Z with (2 ^ 248 * (2 ^ 248 * 2 ^ 16))%Z. nia.
    - unfold vpk3. rewrite <- E1. change 512%nat with (256 + 256)%nat. change (2 ^ 256)%Z with (2 ^ Z.of_nat 256)%Z.
      apply bits_app. apply Wx. }
  assert (Es : num w (fst s) = vsk2 w sk).
  { apply (bits_inj _ _ 256); [apply Ws| |exact E2]. unfold vsk2. pose proof (toZ_range F (w (fst sk))). pose proof (toZ_range F (w (snd sk))).
    change (2 ^ Z.of_nat 256)%Z with (2 ^ 248 * 2 ^ 8)%Z. nia. }
  repeat (split; [assumption|]). split; [repeat (split; [assumption|]); assumption|]. split; [now symmetry|]. split; [now symmetry|]. rewrite Es. now apply Ho.
Qed.

(** ** The Schnorr equation *)
(** A public element: six variables, canonical on the prover's side. *)
Definition inp (v : simvar F) : Prop := length (svar v) = 6%nat /\ red (sv v) = Strict.
Lemma input_sound v : red v = Strict -> sound (alloc_input v) (fun _ o => inp o).
Proof.
  intros Hr. unfold alloc_input. eapply sb; [apply (mapM_all2_sound F _ (fun _ _ _ => True)); intros; eapply sw; [apply sound_new|auto]|].
  intros l. apply sr. intros w H. split; [|exact Hr]. cbn [svar]. apply Forall2_len in H. rewrite seq_length in H. now symmetry.
Qed.
Definition sch w (v : schnorr_v F) : Prop := inp (v_l1 F v) /\ inp (v_l2 F v) /\ inp (v_b0 F v) /\ inp (v_b1 F v) /\ inp (v_b2 F v) /\
  wit w (v_rx F v) /\ wit w (v_ry F v) /\ wit w (v_rs F v) /\ inp (v_resp F v).
Lemma alloc_schnorr_sound rx ry rs resp beta lambda : rsound (alloc_schnorr F K rx ry rs resp beta lambda) sch.
Proof.
  unfold alloc_schnorr. do 5 (eapply rs_bind; [apply rs_lift, input_sound; reflexivity|]; intros ?).
  do 3 (eapply rs_bind; [apply wit_sound|]; intros ?). eapply rs_bind; [apply rs_lift, input_sound; reflexivity|]; intros ?.
  apply rs_ret. unfold sch. cbn. intros w. intros ? [? _] [? _] [? _]. auto 12.
Qed.
(** Static shapes of products. *)
Lemma mul_eleven (a b : simvar F) : rstat F (lift (var_mul a b)) (eleven F).
Proof.
  apply rt_lift. intros c. unfold var_mul. rewrite bnd_eq. cbn [ret fst]. split; cbn [mv mvar mlimbs sim_mul].
  - unfold convolve. now rewrite map_length, seq_length.
  - now rewrite mapM_len.
Qed.
Lemma mul_add_eleven (a b : simvar F) m : rstat F (lift (bnd (var_mul a b) (fun x => mulvar_add x m))) (eleven F).
Proof.
  apply rt_lift. intros c. rewrite bnd_eq. unfold mulvar_add. cbn zeta. rewrite bnd_eq. cbn [ret fst]. split; cbn [mv mvar mlimbs simul_add].
  - now rewrite map_length, seq_length.
  - now rewrite mapM_len.
Qed.
Lemma msub_eleven x y : eleven F x -> rstat F (mulvar_sub S x y) (eleven F).
Proof.
  intros [Hx1 Hx2]. unfold mulvar_sub. apply (rt_bind F _ _ (fun v => length (mlimbs v) = 11%nat)).
  - intros c v c' E. unfold of_res, rmap in E. destruct (simul_sub S (mv x) (sv y)) as [v'| |] eqn:Ev; try discriminate.
    apply Ok_inj in E. injection E as <- _. unfold simul_sub in Ev. destruct (4 <? _)%Z; [discriminate|].
    destruct (_ <? _)%Z; [discriminate|]. apply Ok_inj in Ev. subst v'. cbn [mlimbs].
    rewrite app_length, map_length, seq_length, skipn_length, Hx1. reflexivity.
  - intros v Hv. apply rt_lift. intros c. rewrite bnd_eq. cbn [ret fst]. split; cbn [mv mvar]; [exact Hv|].
    rewrite app_length, mapM_len, skipn_length, Hx2. reflexivity.
Qed.
(** [m] carries [n] units of slack and stands for [x]. *)
Definition prod w (n : Z) (m : simulvar F) (x : Z) : Prop :=
  prod_additions (mv m) = n /\ mlimbs_ok S n (wlimbs w (mvar m)) /\ wnumber S w (mvar m) = x.
(** A public element that is given canonical limbs. *)
Definition canon w (v : simvar F) : Prop := leaf_ok F S w v /\ red (sv v) = Strict.
Lemma mul_prod (a b : simvar F) : sound (var_mul a b) (fun w o => w 0%nat = 0 -> wit w a -> canon w b -> prod w 2 o (num w a * num w b)%Z).
Proof.
  eapply sw; [apply (var_mul_sound F)|]. intros w o [Ev Ew] W0 (La & Ra & _) (Lb & Rb).
  unfold leaf_ok in La, Lb. rewrite Ra in La. rewrite Rb in Lb.
  destruct (mul_w F Hp' S w _ _ _ _ (mvar o) HS La Lb ltac:(unfold CAP; cbn; lia) (Ew W0)) as [H1 H2].
  unfold prod. rewrite Ev. cbn [sim_mul prod_additions]. rewrite Ra, Rb. auto.
Qed.
Lemma mul_add_prod (a b : simvar F) m n x : (0 <= n <= 100)%Z ->
  sound (bnd (var_mul a b) (fun o => mulvar_add o m)) (fun w o => w 0%nat = 0 -> wit w a -> canon w b -> prod w n m (x w) -> prod w (2 + n) o (num w a * num w b + x w)%Z).
Proof.
  intros Hn. eapply sb; [apply mul_prod|]. intros p. eapply sw; [apply (mulvar_add_sound F)|].
  intros w o [Ev Ew] Hm W0 Wa Wb (N & O & E). destruct (Hm W0 Wa Wb) as (N' & O' & E').
  destruct (add_w F Hp' S w _ _ _ _ (mvar o) HS O' O ltac:(unfold CAP; lia) Ew) as [H1 H2].
  unfold prod. rewrite Ev. cbn [simul_add prod_additions]. rewrite N, N'. split; [reflexivity|]. split; [exact H1|]. rewrite H2, E, E'. reflexivity.
Qed.
Lemma schnorr_sound x y s v : rsound (schnorr_equation F x y s v) (fun w _ => w 0%nat = 0 ->
  wit w x -> wit w y -> wit w s -> sch w v ->
  canon w (v_l1 F v) -> canon w (v_l2 F v) -> canon w (v_b0 F v) -> canon w (v_b1 F v) -> canon w (v_b2 F v) -> canon w (v_resp F v) ->
  ((num w (v_b0 F v) * num w x + num w (v_rx F v) + (num w (v_b1 F v) * num w y + num w (v_l1 F v) * num w (v_ry F v)) +
   (num w (v_b2 F v) * num w s + num w (v_l2 F v) * num w (v_rs F v)) - num w (v_resp F v)) mod modulus S = 0)%Z).
Proof.
  unfold schnorr_equation. eapply rs_stat; [apply mul_eleven|apply rs_lift, mul_prod|]. intros m0 _.
  eapply rs_stat; [apply mul_add_eleven|apply rs_lift, (mul_add_prod _ _ m0 2 (fun w => num w x * num w (v_b0 F v))%Z); lia|]. intros m1 _.
  eapply rs_stat; [apply mul_add_eleven|apply rs_lift, (mul_add_prod _ _ m1 4 (fun w => num w y * num w (v_b1 F v) + num w x * num w (v_b0 F v))%Z); lia|]. intros m2 _.
  eapply rs_stat; [apply mul_add_eleven|apply rs_lift, (mul_add_prod _ _ m2 6 (fun w => num w (v_ry F v) * num w (v_l1 F v) + (num w y * num w (v_b1 F v) + num w x * num w (v_b0 F v)))%Z); lia|]. intros m3 _.
  eapply rs_stat; [apply mul_add_eleven|apply rs_lift, (mul_add_prod _ _ m3 8 (fun w => num w s * num w (v_b2 F v) + (num w (v_ry F v) * num w (v_l1 F v) + (num w y * num w (v_b1 F v) + num w x * num w (v_b0 F v))))%Z); lia|].
  intros m4 E4. eapply rs_bind; [apply (var_sub_sound F)|]. intros rhs.
  eapply rs_stat; [apply msub_eleven, E4|apply (mulvar_sub_sound F)|]. intros d [D1 D2].
  eapply rs_weak; [apply (var_enforce_zero_sound F Hp' S d HS D1 D2)|].
  intros w [] [_ HZ] [Ed Wd] [Er Wr] H4 H3 H2 H1 H0 W0 Wx Wy Ws (_ & _ & _ & _ & _ & Wrx & Wry & Wrs & _) C1 C2 C3 C4 C5 C6.
  specialize (H0 W0 Wx C3). specialize (H1 W0 Wy C4 H0). specialize (H2 W0 Wry C1 H1). specialize (H3 W0 Ws C5 H2). specialize (H4 W0 Wrs C2 H3).
  destruct H4 as (N4 & O4 & E4'). change (2 + 8)%Z with 10%Z in *.
  destruct C6 as [Lr Rr]. destruct Wrx as (Lx & Rx & _). unfold leaf_ok in Lr, Lx. rewrite Rr in Lr. rewrite Rx in Lx.
  destruct (sub_w F Hp' S w _ _ _ _ (svar rhs) HS Lr Lx I ltac:(unfold CAP; cbn; lia) Wr) as [Or Nr].
  destruct (msub_w F Hp' S w _ _ _ _ (mvar d) HS O4 Or ltac:(cbn; lia) ltac:(unfold CAP; lia) Wd) as [Od Nd].
  assert (Pd : prod_additions (mv d) = 22%Z).
  { unfold simul_sub in Ed. destruct (4 <? _)%Z; [discriminate|]. destruct (_ <? _)%Z; [discriminate|]. apply Ok_inj in Ed. rewrite <- Ed.
    cbn [prod_additions]. rewrite N4. reflexivity. }
  rewrite Pd in HZ. specialize (HZ W0 Od). rewrite Nd, Nr, E4' in HZ. fold (num w (v_rx F v)) (num w (v_resp F v)) in HZ.
  pose proof (f_mod S HS) as HM. pose proof (f_pmod S HS) as HQ. apply Z.mod_divide in HZ, HQ; try lia. apply Z.mod_divide; [lia|].
  match goal with H : (_ | ?L) |- (_ | ?R) => replace R with (L - 3 * pad_value S)%Z by ring end.
  apply Z.divide_sub_r; [exact HZ|now apply Z.divide_mul_r].
Qed.

(** ** The commitment *)
Lemma packed_F l : fofZ (packed F l) = fold_right (fun x acc => x + step_pow F 1 * acc) 0 l.
Proof.
  induction l as [|x l IH]; cbn [packed fold_right]; [reflexivity|]. rewrite fofZ_add, fofZ_mul, fofZ_toZ, IH. reflexivity.
Qed.
Lemma step_mul i : step_pow F (Datatypes.S i) = step_pow F 1 * step_pow F i.
Proof.
  unfold step_pow. rewrite <- fofZ_mul. f_equal. rewrite Nat.mul_1_r, Nat.mul_succ_r, Nat2Z.inj_add, Z.pow_add_r by lia. apply Z.mul_comm.
Qed.
Lemma chunk_sound l : (1 <= length l <= 5)%nat -> sound (compress_chunk F l) (fun w o => w 0%nat = 0 -> w o = fofZ (packed F (map w l))).
Proof.
  intros HL. unfold compress_chunk. eapply sb; [apply lc_sound|]. intros sum.
  destruct l as [|a l]; [cbn in HL; lia|].
  do 4 (destruct l as [|? l]; [cbn [length Nat.eqb]; apply sr; intros w E W0; rewrite E, packed_F; cbn [map fold_right nth];
    change zero_var with 0%nat; rewrite ?W0, ?(step_mul 2), ?(step_mul 1); ring|]).
  destruct l; [|cbn in HL; lia]. cbn [length Nat.eqb]. eapply sw; [apply lc_sound|]. intros w o E Es W0. rewrite E, Es, packed_F. cbn [map fold_right nth].
  change zero_var with 0%nat. rewrite W0, (step_mul 3), (step_mul 2), (step_mul 1). ring.
Qed.
Lemma chunks_len {A} n f : (0 < n)%nat -> forall l : list A, Forall (fun ch => (1 <= length ch <= n)%nat) (chunks_fuel f n l).
Proof.
  intros Hn. induction f as [|f IH]; intros l; cbn [chunks_fuel]; [constructor|]. destruct l as [|a l]; [constructor|].
  constructor; [|apply IH]. rewrite firstn_length. cbn [length]. lia.
Qed.
Lemma chunks_map {A B} (g : A -> B) n f : forall l, chunks_fuel f n (map g l) = map (map g) (chunks_fuel f n l).
Proof.
  induction f as [|f IH]; intros l; cbn [chunks_fuel map]; [reflexivity|]. destruct l as [|a l]; [reflexivity|].
  rewrite skipn_map, IH. cbn [map]. f_equal. now rewrite <- firstn_map.
Qed.
Lemma compress_sound l : sound (compress_cs F l) (fun w os => w 0%nat = 0 -> map w os = compress F (map w l)).
Proof.
  unfold compress_cs. eapply sw.
  { apply (mapM_all2_sound F _ (fun w ch o => w 0%nat = 0 -> w o = fofZ (packed F (map w ch)))). intros ch Hin. apply chunk_sound.
    pose proof (chunks_len num_limbs_compressed (length l) ltac:(unfold num_limbs_compressed; lia) l) as HC. rewrite Forall_forall in HC. now apply HC. }
  intros w os H W0. unfold compress, chunks. rewrite map_length, chunks_map, map_map. unfold chunks in H.
  revert H. generalize (chunks_fuel (length l) num_limbs_compressed l). intros cs H. induction H as [|ch o cs os H _ IH]; cbn [map]; [reflexivity|].
  rewrite IH, H by exact W0. reflexivity.
Qed.
Lemma absorb_sound l : forall h, rsound (absorb_cs F P e h l) (fun w o => absorb F P (w h) (map w l) = Ok (w o)).
Proof.
  assert (G : forall n l, (length l <= n)%nat -> forall h, rsound (absorb_cs F P e h l) (fun w o => absorb F P (w h) (map w l) = Ok (w o))).
  { induction n as [|n IH]; intros l' Hn h.
    { destruct l'; [|cbn in Hn; lia]. now apply rs_ret. }
    destruct l' as [|a [|b [|c l']]]; cbn [absorb_cs map absorb]; try (intros c1 a1 c1' E; discriminate E); [now apply rs_ret|].
    eapply rs_bind; [apply rs_lift, (hash_sound F P HP e He)|]. intros h'. eapply rs_weak; [apply IH; cbn in Hn; lia|].
    cbn beta. intros w o H E. now rewrite <- E. }
  intros h. now apply (G (length l)).
Qed.
Lemma sponge_sound l : rsound (sponge_cs F P e l) (fun w o => sponge F P (map w l) = Ok (w o)).
Proof.
  destruct l as [|a [|b [|c [|d l]]]]; cbn [sponge_cs]; try (intros c1 a1 c1' E; discriminate E).
  eapply rs_bind; [apply rs_lift, (hash_sound F P HP e He)|]. intros h. eapply rs_weak; [apply absorb_sound|].
  cbn beta. intros w o H E. cbn [map sponge]. now rewrite <- E.
Qed.
Lemma resized_map {A B} (g : A -> B) z l : map g (resized z l) = resized (g z) (map g l).
Proof. unfold resized. rewrite map_app, map_length. f_equal. generalize ((length l - 1 + 2) / 3 * 3 + 1 - length l)%nat. induction n; cbn; congruence. Qed.
(** The limbs of a range-checked element are the digits of its number. *)
Lemma digits_number n : forall l, length l = n -> Forall (fun x : F => 0 <= toZ x < st S)%Z l -> digits F S n (number (st S) (map toZ l)) = l.
Proof.
  pose proof (f_st S HS) as Hs. induction n as [|n IH]; intros [|x l] L H; try discriminate; [reflexivity|].
  inversion H as [|? ? Hx Hl]; subst. cbn [map number digits]. change (step S) with (st S). rewrite (Z.mul_comm (st S)), Z_mod_plus_full, Z.mod_small by exact Hx.
  rewrite Z.div_add, Z.div_small, Z.add_0_l by lia. rewrite fofZ_toZ, IH; [reflexivity|now injection L|exact Hl].
Qed.
Lemma limbs_number w v r : limbs_ok S r (wlimbs w v) -> slack r = 1%Z -> limbs (sim_from F S (wnumber S w v)) = map w v.
Proof.
  intros (L & H & _) R. cbn [sim_from limbs]. unfold wnumber. rewrite wlimbs_map. rewrite wlimbs_len in L. fold (st S).
  apply digits_number; [rewrite map_length; exact L|]. apply Forall_forall. intros x Hx. apply (In_nth _ _ 0) in Hx. destruct Hx as (i & Hi & <-).
  rewrite map_length in Hi. specialize (H i ltac:(lia)). rewrite R, Z.mul_1_l in H.
  rewrite (nth_indep _ 0 (w 0%nat)), map_nth by (rewrite map_length; exact Hi). rewrite (nth_wlimbs F w v i Hi) in H.
  split; [apply H|]. eapply Z.lt_le_trans; [apply H|]. unfold st. apply Z.pow_le_mono_r; [lia|]. unfold width. destruct (Nat.eqb _ _); cbn; lia.
Qed.
Lemma wit_limbs w v : wit w v -> limbs (sim_from F S (num w v)) = map w (svar v).
Proof. intros (H & R & _). unfold leaf_ok in H. rewrite R in H. now apply (limbs_number w _ ByOne). Qed.
Lemma wit_flat w l : Forall (wit w) l -> flat_map (fun x => limbs (sim_from F S x)) (map (num w) l) = map w (flat_map svar l).
Proof. induction 1 as [|v l H _ IH]; cbn [map flat_map]; [reflexivity|]. now rewrite map_app, IH, (wit_limbs w v H). Qed.
Lemma check_comm_sound data rhos r comm : rsound (check_comm F P e data rhos r comm) (fun w cv => w 0%nat = 0 ->
  Forall (wit w) data -> Forall (wit w) rhos -> exists r', inspection_comm F P (map (num w) data) (map (num w) rhos) r' = Ok (w cv)).
Proof.
  unfold check_comm. eapply rs_bind; [apply rs_lift, compress_sound|]. intros cl. eapply rs_bind; [apply rs_lift, sound_new|]. intros rv.
  eapply rs_bind; [apply rs_lift, sound_new|]. intros cv. eapply rs_bind; [apply sponge_sound|]. intros h.
  eapply rs_bind; [apply rs_lift, equal_sound|]. intros []. apply rs_ret. intros w Eq Sp _ _ HC W0 Hd Hr. exists (w rv).
  unfold inspection_comm. rewrite <- map_app, wit_flat by (now apply Forall_app). rewrite <- (HC W0).
  rewrite resized_map, map_app in Sp. change zero_var with 0%nat in Sp. rewrite W0 in Sp. cbn [map] in Sp. rewrite Sp. rewrite W0 in Eq. symmetry in Eq. apply (proj1 (fsub_0 F _ _)) in Eq. now rewrite Eq.
Qed.

(** ** The body *)
(** What the folding circuit enforces about the keys, given what it publishes: the
    published variables are those of the commitment, of the powers of lambda, of
    their multiples and of the combined response. *)
Definition fold_says w (pk : pk_v) (sk : sk_v) (l : list nat) : Prop :=
  exists (cv : nat) (l1 l2 b0 b1 b2 rsp : simvar F) (x y s rx ry rs : Z),
    l = cv :: svar l1 ++ svar l2 ++ svar b0 ++ svar b1 ++ svar b2 ++ svar rsp /\
    inp l1 /\ inp l2 /\ inp b0 /\ inp b1 /\ inp b2 /\ inp rsp /\
    Forall (fun z => 0 <= z < 2 ^ 256)%Z [x; y; s; rx; ry; rs] /\ keyw w pk sk /\
    vpk3 w pk = (x + 2 ^ 256 * y)%Z /\ vsk2 w sk = s /\ (s < order)%Z /\
    (exists r, inspection_comm F P [x; y; s] [rx; ry; rs] r = Ok (w cv)) /\
    (canon w l1 -> canon w l2 -> canon w b0 -> canon w b1 -> canon w b2 -> canon w rsp ->
     ((num w b0 * x + rx + (num w b1 * y + num w l1 * ry) + (num w b2 * s + num w l2 * rs) - num w rsp) mod modulus S = 0)%Z).
Lemma fold_body_sound pk sk fw : rsound (fold_body F K P e pk sk fw) (fun w l => w 0%nat = 0 -> fold_says w pk sk l).
Proof.
  unfold fold_body. destruct (fw_rhos fw) as [|rx [|ry [|rs rest]]]; try (intros c a c' E; discriminate E).
  destruct (combined_response K (fw_resp fw) (fw_lambda fw)) as [resp| |]; try (intros c a c' E; discriminate E).
  eapply rs_bind; [apply link_keys_sound|]. intros [[x y] s]. eapply rs_bind; [apply alloc_schnorr_sound|]. intros v.
  eapply rs_bind; [apply schnorr_sound|]. intros []. eapply rs_bind; [apply check_comm_sound|]. intros cv. apply rs_ret.
  intros w HC HE HV HL W0. destruct (HL W0) as (Wx & Wy & Ws & HK & EK & ES & HO). pose proof HV as (I1 & I2 & I3 & I4 & I5 & I6 & I7 & I8 & I9).
  exists cv, (v_l1 F v), (v_l2 F v), (v_b0 F v), (v_b1 F v), (v_b2 F v), (v_resp F v).
  exists (num w x), (num w y), (num w s), (num w (v_rx F v)), (num w (v_ry F v)), (num w (v_rs F v)).
  split; [reflexivity|]. repeat (split; [assumption|]).
  split; [repeat (constructor; [match goal with H : wit w ?v |- (0 <= num w ?v < _)%Z => apply H end|]); constructor|].
  repeat (split; [assumption|]). split; [apply (HC W0); repeat (constructor; try assumption)|].
  intros. apply HE; assumption.
Qed.
End Afold.
