(** What the constraints of the notes between confidential and anonymous records say. *)
From Coq Require Import List ZArith NArith Bool Lia ZifyBool ZifyNat ZifyN Field.
From Verif Require Import Base Field PField UtilsModel TurboModel TurboSpec TurboProofs TurboHonest TurboKit TurboEmit Power RescueModel RescueSpec RescueProofs
  MixModel MixLemmas AxfrModel AxfrSpec AxfrProofs FoldModel SimModel SimSpec SimProofs SimZero SimCircuit SimHonest SimAlloc
  NoteProofs AfoldModel AfoldEmit AfoldProofs AfoldWhole InspModel InspSpec.
Import ListNotations.
Local Open Scope F_scope.

(** ** Gadgets that may panic, with the values they publish *)
Section Kit.
Context (F : PField).
Definition rsoundp {A} (m : CR F A) (Q : A -> Prop) (R : (nat -> F) -> A -> list F -> Prop) : Prop :=
  forall c a c', (2 <= nvars c)%nat -> m c = Ok (a, c') -> (nvars c <= nvars c')%nat /\ Q a /\
  forall w, sat c' w -> sat c w /\ exists vs, pub_values w c' = pub_values w c ++ vs /\ R w a vs.
Lemma rsp_lift {A} (m : CS F A) Q R : soundp F m Q R -> rsoundp (lift m) Q R.
Proof.
  intros H c a c' Hc E. unfold lift in E. apply Ok_inj in E. destruct (H c Hc) as (H1 & H2 & H3). rewrite E in *. auto.
Qed.
Lemma rsp_bind {A B} (m : CR F A) (f : A -> CR F B) Q1 R1 Q (R : (nat -> F) -> B -> list F -> Prop) :
  rsoundp m Q1 R1 -> (forall a, Q1 a -> rsoundp (f a) Q (fun w b v2 => forall v1, R1 w a v1 -> R w b (v1 ++ v2))) ->
  rsoundp (rbnd m f) Q R.
Proof.
  intros Hm Hf c b c' Hc E. unfold rbnd in E. destruct (m c) as [[a c1]| |] eqn:E1; try discriminate.
  destruct (Hm c a c1 Hc E1) as (M1 & M2 & M3). destruct (Hf a M2 c1 b c' ltac:(lia) E) as (N1 & N2 & N3).
  split; [lia|]. split; [exact N2|]. intros w H. destruct (N3 w H) as (H1 & v2 & H3 & H4). destruct (M3 w H1) as (H5 & v1 & H6 & H7).
  split; [exact H5|]. exists (v1 ++ v2). split; [now rewrite H3, H6, app_assoc|]. now apply H4.
Qed.
Lemma rsp_of (G : gate F -> Prop) {A} (m : CR F A) Q (R : (nat -> F) -> A -> Prop) : (forall g, G g -> silent F g) ->
  remits F G m Q -> rsound F m R -> rsoundp m Q (fun w a vs => vs = [] /\ R w a).
Proof.
  intros HG HE HS c a c' Hc E. destruct (HE c a c' Hc E) as (gs & E1 & E2 & E3 & E4). split; [exact E3|]. split; [exact E4|].
  intros w H. destruct (HS c a c' E w H) as [H1 H2]. split; [exact H1|]. exists []. split; [|auto].
  rewrite (pub_values_app F c c' gs w E1), silent_pub; [reflexivity|]. eapply Forall_impl; [|exact E2]. exact HG.
Qed.
Lemma rsp_weak {A} (m : CR F A) (Q Q' : A -> Prop) (R R' : (nat -> F) -> A -> list F -> Prop) : rsoundp m Q R ->
  (forall a, Q a -> Q' a) -> (forall w a vs, Q a -> R w a vs -> R' w a vs) -> rsoundp m Q' R'.
Proof.
  intros H HQ HR c a c' Hc E. destruct (H c a c' Hc E) as (M1 & M2 & M3). split; [exact M1|]. split; [auto|]. intros w Hs.
  destruct (M3 w Hs) as (H1 & vs & H2 & H3). split; [exact H1|]. exists vs. auto.
Qed.
Lemma rs_and {A} (m : CR F A) (Q : (nat -> F) -> A -> Prop) (T : A -> Prop) : rsound F m Q -> rstat F m T -> rsound F m (fun w a => Q w a /\ T a).
Proof. intros H1 H2 c a c' E w Hs. destruct (H1 c a c' E w Hs) as [H3 H4]. split; [exact H3|]. split; [exact H4|exact (H2 c a c' E)]. Qed.
Lemma rs_panic {A} (Q : (nat -> F) -> A -> Prop) : rsound F (fun _ => Panic) Q.
Proof. intros c a c' E. discriminate E. Qed.
End Kit.

(** ** Emitted gates *)
Section Emit.
Context (F K : PField) (P : rescue_instance F) (e : N).
Context (ok : nat -> Prop) (ok0 : ok 0%nat) (ok2 : forall i, (2 <= i)%nat -> ok i).
Notation pl := (plain F ok).
Notation rem := (remits F pl).
Notation oks := (oks F ok).
Lemma re_bounded_loop S (v : sim F) : forall js rem_, rem (bounded_loop F S v js rem_) (fun r => Forall ok (fst r)).
Proof.
  induction js as [|j js IH]; intros n; cbn [bounded_loop]; [apply re_ret; constructor|].
  destruct (Nat.eqb n 0).
  - eapply re_bind; [apply IH|]. intros r Hr. apply re_ret. cbn [fst]. constructor; [exact ok0|exact Hr].
  - cbn zeta. eapply re_bind; [apply re_require|]. intros _ _.
    eapply (re_bind _ _ _ _ (fun ob => ok (fst ob))).
    + apply re_lift. eapply eb; [apply e_new|]. intros o Ho. eapply eb; [apply (e_range F ok ok0 ok2); auto|]. intros b _. apply er. auto.
    + intros ob Hob. eapply re_bind; [apply IH|]. intros r Hr. apply re_ret. cbn [fst]. constructor; assumption.
Qed.
Lemma re_bounded S (v : sim F) n : rem (alloc_witness_bounded_total_bits S v n) (fun ob => oks (fst ob)).
Proof.
  unfold alloc_witness_bounded_total_bits. eapply re_bind; [apply re_require|]. intros _ _.
  eapply re_bind; [apply re_bounded_loop|]. intros r Hr. apply re_ret. exact Hr.
Qed.
Definition oki (v : insp_v F) : Prop := oks (i_x F v) /\ oks (i_y F v) /\ oks (i_a F v) /\ oks (i_b F v) /\ ok (i_comm F v) /\ ok (i_r F v) /\
  oks (i_beta F v) /\ oks (i_lambda F v) /\ oks (i_bl F v) /\ oks (i_resp F v).
Lemma re_insp_alloc x y a b comm r beta lambda resp : rem (insp_alloc F K x y a b comm r beta lambda resp) oki.
Proof.
  unfold insp_alloc. do 2 (eapply re_bind; [apply re_bounded|]; intros ? ?).
  do 2 (eapply re_bind; [apply (re_alloc_witness F ok ok0 ok2)|]; intros ? [? _]).
  do 2 (eapply re_bind; [apply re_lift, e_new|]; intros ? ?).
  do 4 (eapply re_bind; [apply re_lift, (e_alloc_input F ok ok2)|]; intros ? ?). apply re_ret. unfold oki. cbn. auto 12.
Qed.
Lemma e_rcompress l : Forall ok l -> emits F pl (rcompress_cs F l) (fun os => Forall ok os).
Proof.
  intros H. unfold rcompress_cs. pose proof (chunks_ok ok num_limbs_compressed l H) as HC. revert HC. generalize (chunks num_limbs_compressed l). intros cs HC.
  induction HC as [|ch cs Hc _ IH]; cbn [RescueModel.mapM]; [apply er; constructor|].
  eapply (eb _ _ _ _ ok).
  - unfold rcompress_chunk. eapply eb; [apply (e_lc F ok ok2); now apply (e_nth ok ok0)|]. intros o Ho.
    destruct (Nat.eqb _ _); [apply (e_lc F ok ok2); auto; now apply (e_nth ok ok0)|now apply er].
  - intros o Ho. eapply eb; [exact IH|]. intros os Hos. apply er. now constructor.
Qed.
Lemma re_insp_open v : oki v -> rem (insp_open F P e v) (fun _ => True).
Proof.
  intros (H1 & H2 & H3 & H4 & H5 & H6 & _). unfold insp_open. eapply re_bind.
  { apply re_lift, e_rcompress. rewrite !Forall_app. auto 8. }
  intros cl Hcl. destruct cl as [|c0 [|c1 [|c2 [|c3 [|c4 cl]]]]]; try apply re_panic.
  repeat match goal with H : Forall ok (_ :: _) |- _ => inversion H; clear H; subst end.
  eapply re_bind; [apply re_lift, (e_hash F P e ok ok0 ok2); assumption|]. intros h1 Hh1.
  eapply re_bind; [apply re_lift, (e_hash F P e ok ok0 ok2); assumption|]. intros h2 Hh2.
  eapply re_weak; [apply re_lift, (e_equal F ok ok0); assumption|auto].
Qed.
Lemma re_insp_equation v : oki v -> rem (insp_equation F v) (fun _ => True).
Proof.
  intros (H1 & H2 & H3 & H4 & H5 & H6 & H7 & H8 & H9 & H10). unfold insp_equation.
  do 3 (eapply re_bind; [apply re_lift, (e_var_mul F ok ok0 ok2); assumption|]; intros ? ?).
  do 2 (eapply re_bind; [apply re_lift, (e_mulvar_add F ok ok0 ok2); assumption|]; intros ? ?).
  eapply re_bind; [apply (re_var_sub F ok ok0 ok2); assumption|]. intros d Hd.
  eapply re_bind; [apply (re_mulvar_sub F ok ok0 ok2); assumption|]. intros q Hq. now apply (re_enforce_zero F ok ok0 ok2).
Qed.
Lemma e_insp_number v : oks v -> emits F pl (insp_number F v) ok.
Proof.
  intros H. unfold insp_number. eapply eb; [apply (e_lc F ok ok2); now apply (e_nth ok ok0)|]. intros o Ho.
  apply (e_lc F ok ok2); auto; now apply (e_nth ok ok0).
Qed.
Lemma re_insp_body w am ty : ok am -> ok ty -> rem (insp_body F K P e w am ty) (fun l => Forall ok l).
Proof.
  intros Ha Ht. unfold insp_body. destruct (iw_data w) as [|[x a] [|[y b] rest]]; try apply re_panic.
  destruct (two_responses K (iw_resp w) (iw_lambda w)) as [resp| |]; try apply re_panic.
  eapply re_bind; [apply re_insp_alloc|]. intros v Hv. eapply re_bind; [now apply re_insp_open|]. intros _ _.
  eapply re_bind; [now apply re_insp_equation|]. intros _ _. destruct Hv as (H1 & H2 & H3 & H4 & H5 & H6 & H7 & H8 & H9 & H10).
  eapply (re_bind _ _ _ _ (fun _ => True)).
  - apply re_lift. unfold insp_match. eapply eb; [now apply e_insp_number|]. intros xo Hx. eapply eb; [now apply e_insp_number|]. intros yo Hy.
    eapply eb; [apply (e_equal F ok ok0); assumption|]. intros _ _. eapply ew; [apply (e_equal F ok ok0); assumption|auto].
  - intros _ _. apply re_ret. constructor; [exact H5|]. rewrite !Forall_app. auto 8.
Qed.
End Emit.

(** ** Soundness *)
Section Sound.
Context (F K : PField) (Hp : (2 ^ 254 < pchar F)%Z) (P : rescue_instance F) (HP : rescue_ok F P) (e : N) (He : exp_inv F 5 e).
Context (HK : pchar K = modulus ristretto).
Add Field Finsp : (f_th F).
Add Field Kinsp : (f_th K).
Implicit Types (w : nat -> F).
Notation S := ristretto.
Notation rsound := (rsound F).
Let Hp' : (2 ^ 254 <= pchar F)%Z. Proof. lia. Qed.
Let HV : valid S. Proof. now left. Qed.
Let HS : facts S. Proof. apply valid_facts. exact HV. Qed.

Definition rnum w (v : simvar F) : Z := wnumber S w (svar v).
(** A range-checked element of [n] bits. *)
Definition rwit w (n : Z) (v : simvar F) : Prop := leaf_ok F S w v /\ (red (sv v) = Strict \/ red (sv v) = ByOne) /\ (0 <= rnum w v < 2 ^ n)%Z.
(** A public element with canonical limbs. *)
Definition rcanon w (v : simvar F) : Prop := leaf_ok F S w v /\ red (sv v) = Strict.
Lemma strict_stat x n : n <> 253%nat -> rstat F (alloc_witness_bounded_total_bits S (rsim_of F K x) n) (fun ob => red (sv (fst ob)) = Strict).
Proof.
  intros Hn c a c' E. unfold alloc_witness_bounded_total_bits, rbnd in E.
  destruct (require _ c) as [[u c1]| |]; try discriminate. destruct (bounded_loop _ _ _ _ _ c1) as [[r c2]| |]; try discriminate.
  apply Ok_inj in E. injection E as <- _. cbn [fst sv red]. apply Nat.eqb_neq in Hn. now rewrite Hn.
Qed.
Lemma bounded_wit x n : (n <= 253)%nat -> n <> 253%nat -> rsound (alloc_witness_bounded_total_bits S (rsim_of F K x) n)
  (fun w ob => w 0%nat = 0 -> rwit w (Z.of_nat n) (fst ob) /\ red (sv (fst ob)) = Strict).
Proof.
  intros Hn Hn'. eapply rs_weak; [apply (rs_and F); [apply (alloc_bounded_sound F Hp' S _ n HV); exact Hn|apply strict_stat, Hn']|].
  intros w ob [H R] W0. destruct (H W0) as (H1 & H2 & _). unfold rwit, rnum. auto.
Qed.
Lemma full_wit x : rsound (alloc_witness S (rsim_of F K x)) (fun w ob => rwit w 253 (fst ob) /\ red (sv (fst ob)) = ByOne).
Proof.
  eapply rs_weak; [apply (alloc_witness_sound F Hp' S _ HV)|]. intros w ob (H1 & H2 & H3 & H4 & H5).
  change (total S) with 253%nat in *. unfold rwit, rnum. rewrite H2 in *. auto.
Qed.
Definition says w (v : insp_v F) : Prop :=
  rwit w 64 (i_x F v) /\ red (sv (i_x F v)) = Strict /\ rwit w 240 (i_y F v) /\ red (sv (i_y F v)) = Strict /\
  rwit w 253 (i_a F v) /\ red (sv (i_a F v)) = ByOne /\ rwit w 253 (i_b F v) /\ red (sv (i_b F v)) = ByOne /\
  inp F (i_beta F v) /\ inp F (i_lambda F v) /\ inp F (i_bl F v) /\ inp F (i_resp F v).
Lemma insp_alloc_sound x y a b comm r beta lambda resp :
  rsound (insp_alloc F K x y a b comm r beta lambda resp) (fun w v => w 0%nat = 0 -> says w v).
Proof.
  unfold insp_alloc. eapply rs_bind; [apply bounded_wit; lia|]. intros vx. eapply rs_bind; [apply bounded_wit; lia|]. intros vy.
  do 2 (eapply rs_bind; [apply full_wit|]; intros ?). do 2 (eapply rs_bind; [apply rs_lift, sound_new|]; intros ?).
  do 4 (eapply rs_bind; [apply rs_lift, (input_sound F); reflexivity|]; intros ?). apply rs_ret.
  intros w I4 I3 I2 I1 _ _ [B1 B2] [A1 A2] Hy Hx W0. destruct (Hx W0) as [X1 X2]. destruct (Hy W0) as [Y1 Y2]. unfold says. cbn. auto 16.
Qed.

(** *** The commitment *)
Lemma rpacked_F l : fofZ (rpacked F l) = fold_right (fun x acc => x + rstep F 1 * acc) 0 l.
Proof.
  induction l as [|x l IH]; cbn [rpacked fold_right]; [reflexivity|]. rewrite fofZ_add, fofZ_mul, fofZ_toZ, IH. reflexivity.
Qed.
Lemma rstep_mul i : rstep F (Datatypes.S i) = rstep F 1 * rstep F i.
Proof.
  unfold rstep. rewrite <- fofZ_mul. f_equal. rewrite Nat.mul_1_r, Nat.mul_succ_r, Nat2Z.inj_add, Z.pow_add_r by lia. apply Z.mul_comm.
Qed.
Lemma rchunk_sound l : (1 <= length l <= 5)%nat -> sound (rcompress_chunk F l) (fun w o => w 0%nat = 0 -> w o = fofZ (rpacked F (map w l))).
Proof.
  intros HL. unfold rcompress_chunk. eapply sb; [apply lc_sound|]. intros sum.
  destruct l as [|a l]; [cbn in HL; lia|].
  do 4 (destruct l as [|? l]; [cbn [length Nat.eqb]; apply sr; intros w E W0; rewrite E, rpacked_F; cbn [map fold_right nth];
    change zero_var with 0%nat; rewrite ?W0, ?(rstep_mul 2), ?(rstep_mul 1); ring|]).
  destruct l; [|cbn in HL; lia]. cbn [length Nat.eqb]. eapply sw; [apply lc_sound|]. intros w o E Es W0. rewrite E, Es, rpacked_F. cbn [map fold_right nth].
  change zero_var with 0%nat. rewrite W0, (rstep_mul 3), (rstep_mul 2), (rstep_mul 1). ring.
Qed.
Lemma rcompress_sound l : sound (rcompress_cs F l) (fun w os => w 0%nat = 0 -> map w os = rcompress F (map w l)).
Proof.
  unfold rcompress_cs. eapply sw.
  { apply (mapM_all2_sound F _ (fun w ch o => w 0%nat = 0 -> w o = fofZ (rpacked F (map w ch)))). intros ch Hin. apply rchunk_sound.
    pose proof (chunks_len num_limbs_compressed (length l) ltac:(unfold num_limbs_compressed; lia) l) as HC. rewrite Forall_forall in HC. now apply HC. }
  intros w os H W0. unfold rcompress, chunks. rewrite map_length, chunks_map, map_map. unfold chunks in H.
  revert H. generalize (chunks_fuel (length l) num_limbs_compressed l). intros cs H. induction H as [|ch o cs os H _ IH]; cbn [map]; [reflexivity|].
  rewrite IH, H by exact W0. reflexivity.
Qed.
Lemma rdigits_number n : forall l, length l = n -> Forall (fun x : F => 0 <= toZ x < st S)%Z l -> digits F S n (number (st S) (map toZ l)) = l.
Proof.
  pose proof (f_st S HS) as Hs. induction n as [|n IH]; intros [|x l] L H; try discriminate; [reflexivity|].
  inversion H as [|? ? Hx Hl]; subst. cbn [map number digits]. change (step S) with (st S). rewrite (Z.mul_comm (st S)), Z_mod_plus_full, Z.mod_small by exact Hx.
  rewrite Z.div_add, Z.div_small, Z.add_0_l by lia. rewrite fofZ_toZ, IH; [reflexivity|now injection L|exact Hl].
Qed.
Lemma rlimbs_number w v r : limbs_ok S r (wlimbs w v) -> slack r = 1%Z -> limbs (sim_from F S (wnumber S w v)) = map w v.
Proof.
  intros (L & H & _) R. cbn [sim_from limbs]. unfold wnumber. rewrite wlimbs_map. rewrite wlimbs_len in L. fold (st S).
  apply rdigits_number; [rewrite map_length; exact L|]. apply Forall_forall. intros x Hx. apply (In_nth _ _ 0) in Hx. destruct Hx as (i & Hi & <-).
  rewrite map_length in Hi. specialize (H i ltac:(lia)). rewrite R, Z.mul_1_l in H.
  rewrite (nth_indep _ 0 (w 0%nat)), map_nth by (rewrite map_length; exact Hi). rewrite (nth_wlimbs F w v i Hi) in H.
  split; [apply H|]. eapply Z.lt_le_trans; [apply H|]. unfold st. apply Z.pow_le_mono_r; [lia|]. unfold width. destruct (Nat.eqb _ _); cbn; lia.
Qed.
Lemma rwit_limbs w n v : rwit w n v -> limbs (sim_from F S (rnum w v)) = map w (svar v).
Proof. intros (H & R & _). unfold leaf_ok in H. apply (rlimbs_number w _ _ H). destruct R as [-> | ->]; reflexivity. Qed.
Lemma rwit_len w n v : rwit w n v -> length (svar v) = 6%nat.
Proof. intros ((L & _) & _). now rewrite wlimbs_len in L. Qed.
(** Twenty-four limbs are packed in five scalars. *)
Lemma insp_open_sound v : rsound (insp_open F P e v) (fun w _ => w 0%nat = 0 -> says w v ->
  state_comm F P [rnum w (i_x F v); rnum w (i_y F v)] [rnum w (i_a F v); rnum w (i_b F v)] (w (i_r F v)) = Ok (w (i_comm F v))).
Proof.
  unfold insp_open. eapply rs_bind; [apply rs_lift, rcompress_sound|]. intros cl.
  destruct cl as [|c0 [|c1 [|c2 [|c3 [|c4 cl]]]]]; [apply rs_panic..|].
  eapply rs_bind; [apply rs_lift, (hash_sound F P HP e He)|]. intros h1. eapply rs_bind; [apply rs_lift, (hash_sound F P HP e He)|]. intros h2.
  eapply rs_weak; [apply rs_lift, equal_sound|]. intros w [] Eq E2 E1 HC W0 (X & _ & Y & _ & A & _ & B & _).
  specialize (HC W0). rewrite W0 in Eq. symmetry in Eq. apply (proj1 (fsub_0 F _ _)) in Eq. change zero_var with 0%nat in E2. rewrite W0 in E2.
  unfold state_comm. cbn [app flat_map]. rewrite (rwit_limbs w _ _ X), (rwit_limbs w _ _ Y), (rwit_limbs w _ _ A), (rwit_limbs w _ _ B), app_nil_r, <- !map_app.
  rewrite <- HC. assert (cl = []) as ->.
  { apply (f_equal (@length F)) in HC. unfold rcompress, chunks in HC. rewrite !map_length, !app_length in HC.
    rewrite (rwit_len w _ _ X), (rwit_len w _ _ Y), (rwit_len w _ _ A), (rwit_len w _ _ B) in HC.
    destruct cl; [reflexivity|]. exfalso. revert HC. rewrite chunks_map, map_length.
    pose proof (rwit_len w _ _ X) as LX. pose proof (rwit_len w _ _ Y) as LY. pose proof (rwit_len w _ _ A) as LA. pose proof (rwit_len w _ _ B) as LB.
    assert (LL : length (svar (i_x F v) ++ svar (i_y F v) ++ svar (i_a F v) ++ svar (i_b F v)) = 24%nat) by (rewrite !app_length; lia).
    revert LL. generalize (svar (i_x F v) ++ svar (i_y F v) ++ svar (i_a F v) ++ svar (i_b F v)). intros l LL.
    do 24 (destruct l as [|? l]; [discriminate LL|]). destruct l; [|discriminate LL]. cbn. lia. }
  cbn [map app resized length Nat.sub Nat.add Nat.div Nat.mul repeat]. cbn [sponge absorb].
  cbn -[AxfrModel.hash]. rewrite <- E1, <- E2. now rewrite Eq.
Qed.

(** *** The equation *)
Definition rprod w (n : Z) (m : simulvar F) (x : Z) : Prop :=
  prod_additions (mv m) = n /\ mlimbs_ok S n (wlimbs w (mvar m)) /\ wnumber S w (mvar m) = x.
Lemma rmul_prod (a b : simvar F) r : sound (var_mul a b) (fun w o => w 0%nat = 0 -> rcanon w a -> leaf_ok F S w b -> red (sv b) = r -> r = Strict \/ r = ByOne ->
  rprod w (additions r + 1) o (rnum w a * rnum w b)%Z).
Proof.
  eapply sw; [apply (var_mul_sound F)|]. intros w o [Ev Ew] W0 (La & Ra) Lb Rb Hr.
  unfold leaf_ok in La, Lb. rewrite Ra in La. rewrite Rb in Lb.
  destruct (mul_w F Hp' S w _ _ _ _ (mvar o) HS La Lb ltac:(unfold CAP; destruct Hr as [-> | ->]; cbn; lia) (Ew W0)) as [H1 H2].
  unfold rprod. rewrite Ev. cbn [sim_mul prod_additions]. rewrite Ra, Rb. cbn [additions] in *. rewrite !Z.mul_1_l in *. auto.
Qed.
Lemma radd_prod (a b : simulvar F) n m : (0 <= n <= 100)%Z -> (0 <= m <= 100)%Z ->
  sound (mulvar_add a b) (fun w o => forall x y, rprod w n a x -> rprod w m b y -> rprod w (n + m) o (x + y)%Z).
Proof.
  intros Hn Hm. eapply sw; [apply (mulvar_add_sound F)|]. intros w o [Ev Ew] x y (N & O & E) (N' & O' & E').
  destruct (add_w F Hp' S w _ _ _ _ (mvar o) HS O O' ltac:(unfold CAP; lia) Ew) as [H1 H2].
  unfold rprod. rewrite Ev. cbn [simul_add prod_additions]. rewrite N, N'. split; [reflexivity|]. split; [exact H1|]. now rewrite H2, E, E'.
Qed.
Lemma radd_eleven (a b : simulvar F) : rstat F (lift (mulvar_add a b)) (eleven F).
Proof.
  apply rt_lift. intros c. unfold mulvar_add. cbn zeta. rewrite bnd_eq. cbn [ret fst]. split; cbn [mv mvar mlimbs simul_add].
  - now rewrite map_length, seq_length.
  - now rewrite mapM_len.
Qed.
Lemma rmsub_eleven x y : eleven F x -> rstat F (mulvar_sub S x y) (eleven F).
Proof.
  intros [Hx1 Hx2]. unfold mulvar_sub. apply (rt_bind F _ _ (fun v => length (mlimbs v) = 11%nat)).
  - intros c v c' E. unfold of_res, rmap in E. destruct (simul_sub S (mv x) (sv y)) as [v'| |] eqn:Ev; try discriminate.
    apply Ok_inj in E. injection E as <- _. unfold simul_sub in Ev. destruct (4 <? _)%Z; [discriminate|].
    destruct (_ <? _)%Z; [discriminate|]. apply Ok_inj in Ev. subst v'. cbn [mlimbs].
    rewrite app_length, map_length, seq_length, skipn_length, Hx1. reflexivity.
  - intros v Hv. apply rt_lift. intros c. rewrite bnd_eq. cbn [ret fst]. split; cbn [mv mvar]; [exact Hv|].
    rewrite app_length, mapM_len, skipn_length, Hx2. reflexivity.
Qed.
Lemma insp_equation_sound v : rsound (insp_equation F v) (fun w _ => w 0%nat = 0 -> says w v ->
  rcanon w (i_beta F v) -> rcanon w (i_lambda F v) -> rcanon w (i_bl F v) -> rcanon w (i_resp F v) ->
  ((rnum w (i_beta F v) * rnum w (i_x F v) + rnum w (i_bl F v) * rnum w (i_y F v) + rnum w (i_lambda F v) * rnum w (i_b F v)
    + rnum w (i_a F v) - rnum w (i_resp F v)) mod modulus S = 0)%Z).
Proof.
  unfold insp_equation. eapply rs_bind; [apply rs_lift, (rmul_prod _ _ Strict)|]. intros m0. eapply rs_bind; [apply rs_lift, (rmul_prod _ _ Strict)|]. intros m1.
  eapply rs_bind; [apply rs_lift, (rmul_prod _ _ ByOne)|]. intros m2. cbn [additions Z.add]. 
  eapply rs_stat; [apply radd_eleven|apply rs_lift, (radd_prod m0 m1 1 1); lia|]. intros r0 _.
  eapply rs_stat; [apply radd_eleven|apply rs_lift, (radd_prod r0 m2 2 2); lia|]. intros rhs E4. cbn [Z.add Pos.add].
  eapply rs_bind; [apply (var_sub_sound F)|]. intros d.
  eapply rs_stat; [apply rmsub_eleven, E4|apply (mulvar_sub_sound F)|]. intros q [D1 D2].
  eapply rs_weak; [apply (var_enforce_zero_sound F Hp' S q HS D1 D2)|].
  intros w [] [_ HZ] [Ed Wd] [Er Wr] H4 H3 H2 H1 H0 W0 (Wx & Rx & Wy & Ry & Wa & Ra & Wb & Rb & _) Cb Cl Cbl Cr.
  specialize (H0 W0 Cb (proj1 Wx) Rx (or_introl eq_refl)). specialize (H1 W0 Cbl (proj1 Wy) Ry (or_introl eq_refl)).
  specialize (H2 W0 Cl (proj1 Wb) Rb (or_intror eq_refl)). specialize (H3 _ _ H0 H1). specialize (H4 _ _ H3 H2).
  destruct H4 as (N4 & O4 & E4'). destruct Cr as [Lr Rr]. destruct Wa as (La & _). unfold leaf_ok in Lr, La. rewrite Rr in Lr. rewrite Ra in La.
  destruct (sub_w F Hp' S w _ _ _ _ (svar d) HS Lr La I ltac:(unfold CAP; cbn; lia) Wr) as [Or Nr].
  destruct (msub_w F Hp' S w _ _ _ _ (mvar q) HS O4 Or ltac:(cbn; lia) ltac:(unfold CAP; lia) Wd) as [Od Nd].
  assert (Pd : prod_additions (mv q) = 16%Z).
  { unfold simul_sub in Ed. destruct (4 <? _)%Z; [discriminate|]. destruct (_ <? _)%Z; [discriminate|]. apply Ok_inj in Ed. rewrite <- Ed.
    cbn [prod_additions]. rewrite N4. reflexivity. }
  rewrite Pd in HZ. specialize (HZ W0 Od). rewrite Nd, Nr, E4' in HZ. fold (rnum w (i_a F v)) (rnum w (i_resp F v)) in HZ.
  pose proof (f_mod S HS) as HM. pose proof (f_pmod S HS) as HQ. apply Z.mod_divide in HZ, HQ; try lia. apply Z.mod_divide; [lia|].
  match goal with H : (_ | ?L)%Z |- (_ | ?R)%Z => replace R with (L - 3 * pad_value S)%Z by ring end.
  apply Z.divide_sub_r; [exact HZ|now apply Z.divide_mul_r].
Qed.

(** *** The scalars *)
Lemma number_F (l : list F) : fofZ (number (st S) (map toZ l)) = fold_right (fun x acc => x + rstep F 1 * acc) 0 l.
Proof.
  induction l as [|x l IH]; cbn [map number fold_right]; [reflexivity|]. rewrite fofZ_add, fofZ_mul, fofZ_toZ, IH. reflexivity.
Qed.
Lemma insp_number_sound v : sound (insp_number F v) (fun w o => w 0%nat = 0 -> length (svar v) = 6%nat -> w o = fofZ (rnum w v)).
Proof.
  unfold insp_number. eapply sb; [apply lc_sound|]. intros o1. eapply sw; [apply lc_sound|]. intros w o E E1 W0 L.
  unfold rnum, wnumber. fold (st S). rewrite wlimbs_map, number_F. revert E E1 L. generalize (svar v). intros l E E1 L.
  do 6 (destruct l as [|? l]; [discriminate L|]). destruct l; [|discriminate L]. cbn [map fold_right nth] in *.
  change zero_var with 0%nat in *. rewrite E, E1, W0, (rstep_mul 4), (rstep_mul 3), (rstep_mul 2), (rstep_mul 1). ring.
Qed.
Lemma insp_match_sound v am ty : sound (insp_match F v am ty) (fun w _ => w 0%nat = 0 -> says w v -> w am = fofZ (rnum w (i_x F v)) /\ w ty = fofZ (rnum w (i_y F v))).
Proof.
  unfold insp_match. eapply sb; [apply insp_number_sound|]. intros xo. eapply sb; [apply insp_number_sound|]. intros yo.
  eapply sb; [apply equal_sound|]. intros []. eapply sw; [apply equal_sound|]. intros w [] E2 E1 Hy Hx W0 (X & _ & Y & _).
  rewrite W0 in E1, E2. symmetry in E1, E2. apply (proj1 (fsub_0 F _ _)) in E1, E2. rewrite <- E1, <- E2.
  split; [apply Hx|apply Hy]; auto; eapply rwit_len; eassumption.
Qed.

(** *** The body *)
Definition body_says w (am ty : nat) (l : list nat) : Prop :=
  exists (cv : nat) (beta lambda bl rsp : simvar F) (x y a b : Z) (r : F),
    l = cv :: svar beta ++ svar lambda ++ svar bl ++ svar rsp /\ inp F beta /\ inp F lambda /\ inp F bl /\ inp F rsp /\
    (0 <= x < 2 ^ 64)%Z /\ (0 <= y < 2 ^ 240)%Z /\ (0 <= a < 2 ^ 253)%Z /\ (0 <= b < 2 ^ 253)%Z /\
    w am = fofZ x /\ w ty = fofZ y /\ state_comm F P [x; y] [a; b] r = Ok (w cv) /\
    (rcanon w beta -> rcanon w lambda -> rcanon w bl -> rcanon w rsp ->
     ((rnum w beta * x + rnum w bl * y + rnum w lambda * b + a - rnum w rsp) mod modulus S = 0)%Z).
Lemma insp_body_sound iw am ty : rsound (insp_body F K P e iw am ty) (fun w l => w 0%nat = 0 -> body_says w am ty l).
Proof.
  unfold insp_body. destruct (iw_data iw) as [|[x a] [|[y b] rest]]; [apply rs_panic..|].
  destruct (two_responses K (iw_resp iw) (iw_lambda iw)) as [resp| |]; [|apply rs_panic..].
  eapply rs_bind; [apply insp_alloc_sound|]. intros v. eapply rs_bind; [apply insp_open_sound|]. intros []. eapply rs_bind; [apply insp_equation_sound|]. intros [].
  eapply rs_bind; [apply rs_lift, insp_match_sound|]. intros []. apply rs_ret. intros w HM HE HO HA W0. specialize (HA W0).
  destruct (HM W0 HA) as [M1 M2]. specialize (HO W0 HA). specialize (HE W0 HA). destruct HA as (X & _ & Y & _ & A & _ & B & _ & I1 & I2 & I3 & I4).
  exists (i_comm F v), (i_beta F v), (i_lambda F v), (i_bl F v), (i_resp F v).
  exists (rnum w (i_x F v)), (rnum w (i_y F v)), (rnum w (i_a F v)), (rnum w (i_b F v)), (w (i_r F v)).
  split; [reflexivity|]. repeat (split; [first [assumption|apply X|apply Y|apply A|apply B]|]). exact HE.
Qed.

(** *** Published values *)
Lemma of_range' (x : K) : (0 <= toZ x < modulus S)%Z.
Proof. rewrite <- HK. apply toZ_range. Qed.
Lemma rcanon_of w v z : inp F v -> map w (svar v) = limbs (sim_from F S z) -> (0 <= z < modulus S)%Z -> rcanon w v /\ rnum w v = z.
Proof.
  intros [L R] E Hz. destruct (from_represents F Hp' S z HS Hz) as (O & N & _). unfold rcanon, leaf_ok, rnum, wnumber. rewrite R.
  rewrite (wlimbs_map F w (svar v)), E. auto.
Qed.
Lemma equation_two (x y a b : Z) (s beta lambda : K) :
  ((toZ beta * x + toZ (beta * lambda) * y + toZ lambda * b + a - toZ s) mod pchar K = 0)%Z ->
  two_equations (fofZ x) (fofZ y) (fofZ a) (fofZ b) s beta lambda.
Proof.
  intros E. assert (E' : (fofZ (toZ beta * x + toZ (beta * lambda)%F * y + toZ lambda * b + a - toZ s) : K) = 0).
  { rewrite <- (fofZ_toZ K (fofZ _)), toZ_fofZ, E. reflexivity. }
  rewrite fofZ_sub, !fofZ_add, !fofZ_mul, !fofZ_toZ in E'. unfold two_equations.
  match type of E' with ?l - ?r = _ => assert (E2 : l = r) by (now apply (fsub_0 K)) end. rewrite <- E2. ring.
Qed.
Lemma body_inspected w am ty l comm resp beta lambda vs : body_says w am ty l -> insp_inputs F K comm resp beta lambda = Ok vs -> map w l = vs ->
  inspected F K P (w am) (w ty) comm resp beta lambda.
Proof.
  intros (cv & vb & vl & vbl & vr & x & y & a & b & r & -> & I1 & I2 & I3 & I4 & Rx & Ry & Ra & Rb & Ex & Ey & HC & HE) EV EM.
  unfold insp_inputs in EV. destruct (two_responses K resp lambda) as [z| |] eqn:Ez; try discriminate EV. cbn [rmap bind] in EV. apply Ok_inj in EV. subst vs.
  cbn [map] in EM. rewrite !map_app in EM. pose proof (f_equal (hd 0) EM) as Ec. apply (f_equal (@tl F)) in EM. cbn [hd tl] in Ec, EM.
  assert (L : forall v : simvar F, inp F v -> length (map w (svar v)) = 6%nat) by (intros v [Lv _]; now rewrite map_length).
  apply (app_split 6) in EM; [destruct EM as [M1 EM]|now apply L|reflexivity]. apply (app_split 6) in EM; [destruct EM as [M2 EM]|now apply L|reflexivity].
  apply (app_split 6) in EM; [destruct EM as [M3 M4]|now apply L|reflexivity].
  destruct (rcanon_of w vb _ I1 M1 (of_range' _)) as [C1 N1]. destruct (rcanon_of w vl _ I2 M2 (of_range' _)) as [C2 N2].
  destruct (rcanon_of w vbl _ I3 M3 (of_range' _)) as [C3 N3]. destruct (rcanon_of w vr _ I4 M4 (of_range' _)) as [C4 N4].
  specialize (HE C1 C2 C3 C4). rewrite N1, N2, N3, N4, <- HK in HE. apply equation_two in HE.
  exists x, y, a, b, r. split; [|auto]. repeat (split; [assumption|]). split; [rewrite HC; now rewrite Ec|]. exists z. auto.
Qed.

(** *** The circuits *)
Notation hash := (AxfrModel.hash F P).
Notation plain_sil := (plain_sil F).
Lemma rsp_body iw am ty : rsoundp F (insp_body F K P e iw am ty) (fun _ => True) (fun w l vs => vs = [] /\ (w 0%nat = 0 -> body_says w am ty l)).
Proof.
  eapply (rsp_weak F _ (fun l => Forall any l)); [eapply (rsp_of F (plain F any)); [exact plain_sil|apply re_insp_body; unfold any; auto|apply insp_body_sound]|auto|auto].
Qed.
Lemma from_sound amount ty blind pk iw : rsoundp F (bar_to_abar_cs F K P e amount ty blind pk iw) (fun _ => True)
  (fun w _ vs => w 0%nat = 0 -> exists a t b p l, vs = commitment F hash p b a t :: l /\
     forall comm resp beta lambda, insp_inputs F K comm resp beta lambda = Ok l -> inspected F K P a t comm resp beta lambda).
Proof.
  unfold bar_to_abar_cs. do 3 (eapply rsp_bind; [apply rsp_lift, (new_var_sp F)|]; intros ? _).
  eapply rsp_bind.
  { apply rsp_lift. eapply (sp_of F (plain F any) _ (fun _ => True) _ plain_sil); [|apply new_pk_sound].
    eapply ew; [apply (e_new_pk F any any2)|auto]. }
  intros pkv _. eapply rsp_bind; [apply rsp_body|]. intros l _.
  eapply rsp_bind.
  { apply rsp_lift. eapply (sp_of F (plain F any) _ (fun _ => True) _ plain_sil); [|apply (commit_sound F P HP e He)].
    eapply ew; [apply (e_commit F P e any any0 any2); [exact I..|apply okpk_any]|auto]. }
  intros com _. eapply rsp_weak; [apply rsp_lift, publish_sp|auto|]. cbn beta.
  intros w ? vs _ -> v1 [-> R1] v2 [-> R2] v3 [-> _] v4 -> v5 -> v6 -> Z0. cbn [app map].
  destruct pkv as [[p0 p1] p2]. rewrite Z0 in R1. eexists _, _, _, (w p0, w p1, w p2), (map w l). split; [cbn [commitment]; now rewrite R1|].
  intros comm resp beta lambda EV. eapply body_inspected; [exact (R2 Z0)|exact EV|reflexivity].
Qed.

Context (fold : pk_v -> sk_v -> CR F unit) (Rf : (nat -> F) -> pk_v -> sk_v -> list F -> Prop)
  (Hfold : forall pk sk, rsoundp F (fold pk sk) (fun _ => True) (fun w _ vs => Rf w pk sk vs)).
Context (Hbig : (2 ^ 64 < pchar F)%Z).
Lemma to_sound p k iw : rsoundp F (abar_to_bar_cs F K P e fold p k iw) (fun _ => True)
  (fun w _ vs => w 0%nat = 0 -> exists s root pkv skv l fv, let pk := vpk F w pkv in let sk := vsk F w skv in
     length (sp_path s) = length (p_path F p) /\ length l = 25%nat /\
     vs = nullifier F hash pk sk s :: root :: l ++ fv /\ in_tree F hash pk root s /\ Rf w pkv skv fv /\
     forall comm resp beta lambda, insp_inputs F K comm resp beta lambda = Ok l -> inspected F K P (sp_amount s) (sp_type s) comm resp beta lambda).
Proof.
  unfold abar_to_bar_cs.
  eapply (rsp_bind F _ _ (fun v => length (pv_path v) = length (p_path F p))).
  { apply rsp_lift. eapply (sp_of F (plain F any) _ _ _ plain_sil); [|apply (add_payer_sound F)].
    eapply ew; [apply (e_add_payer F any any0 any2)|]. intros a [L _]. exact L. }
  intros v Hv. eapply rsp_bind.
  { apply rsp_lift. eapply (sp_of F (plain F any) _ (fun _ => True) _ plain_sil); [|apply new_pk_sound].
    eapply ew; [apply (e_new_pk F any any2)|auto]. }
  intros pk _. eapply rsp_bind.
  { apply rsp_lift. eapply (sp_of F (plain F any) _ (fun _ => True) _ plain_sil); [|apply new_sk_sound].
    eapply ew; [apply (e_new_sk F any any2)|auto]. }
  intros sk _. eapply rsp_bind.
  { apply rsp_lift. eapply (sp_of F (plain F any) _ (fun _ => True) _ plain_sil); [|apply (commit_sound F P HP e He)].
    eapply ew; [apply (e_commit F P e any any0 any2); [exact I..|apply okpk_any]|auto]. }
  intros com _. eapply rsp_bind.
  { apply rsp_lift. eapply (sp_of F (plain F any) _ (fun _ => True) _ plain_sil); [|apply linear_combine_sound].
    eapply ew; [apply (e_lc F any any2); exact I|auto]. }
  intros ua _. eapply rsp_bind.
  { apply rsp_lift. eapply (sp_of F (plain F any) _ (fun _ => True) _ plain_sil); [|apply (nullify_sound F P HP e He)].
    eapply ew; [apply (e_nullify F P e any any0 any2); [apply oksk_any|exact I|exact I|apply okpk_any]|auto]. }
  intros nf _. eapply rsp_bind.
  { apply rsp_lift. eapply (sp_of F (plain F any) _ (fun _ => True) _ plain_sil); [|apply (merkle_sound F P HP e He Hbig)].
    eapply ew; [apply (e_merkle F P e any any0 any2); [exact I..|apply oknodes_any]|auto]. }
  intros root _. eapply rsp_bind; [apply rsp_body|]. intros l _.
  eapply rsp_bind; [apply rsp_lift, publish_sp|]. intros ? _. eapply rsp_weak; [apply Hfold|auto|]. cbn beta.
  intros w ? fv _ HR v4 -> v44 [-> Rb] v5 [-> R5] v6 [-> R6] v7 [-> R7] v8 [-> R8] v9 [-> _] v10 [-> _] v11 [-> R11] Z.
  specialize (Rb Z). exists (spend_of F w v), (w root), pk, sk, (map w l), fv. cbv zeta.
  destruct pk as [[p0 p1] p2]. cbn [vpk]. unfold zero_var in R7. rewrite Z in R7, R8.
  split; [cbn; now rewrite map_length|].
  split.
  { destruct Rb as (cv & vb & vl & vbl & vr & x & y & za & zb & r & -> & I1 & I2 & I3 & I4 & _).
    rewrite map_length. cbn [length]. rewrite !app_length, (proj1 I1), (proj1 I2), (proj1 I3), (proj1 I4). reflexivity. }
  split; [|split; [|split; [exact HR|]]].
  - cbn [app map]. f_equal. unfold nullifier, vsk. cbn [fst snd spend_of sp_uid sp_amount sp_type]. rewrite R6, R7. f_equal. f_equal. ring.
  - unfold in_tree. cbn [spend_of sp_uid sp_path]. rewrite (R5 Z R11), R8. reflexivity.
  - intros comm resp beta lambda EV. cbn [spend_of sp_amount sp_type]. eapply body_inspected; [exact Rb|exact EV|reflexivity].
Qed.
End Sound.
