(** Address folding: which witnesses build without a panic, and honest runs. *)
From Coq Require Import List ZArith NArith Bool Lia ZifyBool ZifyNat Field.
From Verif Require Import Base Field PField UtilsModel TurboModel TurboSpec TurboProofs TurboHonest TurboKit TurboEmit Power RescueModel RescueSpec RescueProofs
  MixModel MixLemmas AxfrModel AxfrProofs AxfrHonest FoldModel FoldProofs FoldLemmas SimModel SimSpec SimProofs SimZero SimCircuit SimHonest SimAlloc
  NoteProofs AfoldModel AfoldEmit AfoldProofs.
Import ListNotations.
Local Open Scope Z_scope.

Section Num.
Context (K : PField).
Add Field Kafh : (f_th K).
Lemma fofZ_zero z : (fofZ z = (0 : K))%F <-> z mod pchar K = 0.
Proof.
  rewrite <- (toZ_fofZ K). split; intros H; [rewrite H; apply (toZ_0 K)|]. apply toZ_inj. now rewrite H, (toZ_0 K).
Qed.
(** The combined verification equation, over integers and in the field. *)
Definition schnorr_holds (x y s rx ry rs resp beta lambda : K) : Prop :=
  (beta * x + rx + lambda * (beta * y + ry) + lambda * lambda * (beta * s + rs) = resp)%F.
Lemma equation_iff (X Y W RX RY RS : Z) (resp beta lambda : K) :
  (toZ (1 * beta)%F * X + RX + (toZ (lambda * beta)%F * Y + toZ lambda * RY) +
   (toZ (lambda * lambda * beta)%F * W + toZ (lambda * lambda)%F * RS) - toZ resp) mod pchar K = 0 <->
  schnorr_holds (fofZ X) (fofZ Y) (fofZ W) (fofZ RX) (fofZ RY) (fofZ RS) resp beta lambda.
Proof.
  rewrite <- fofZ_zero. unfold schnorr_holds. rewrite fofZ_sub, !fofZ_add, !fofZ_mul, !fofZ_toZ. split; intros H.
  - apply (proj1 (fsub_0 K _ _)). rewrite <- H. ring.
  - rewrite <- H. ring.
Qed.
End Num.

Section Honest.
Context (F K : PField) (Hp : 2 ^ 254 < pchar F) (P : rescue_instance F) (HP : rescue_ok F P) (e : N) (He : exp_inv F 5 e).
Context (HK : pchar K = modulus secq256k1).
Add Field Fafh : (f_th F).
Local Open Scope F_scope.
Notation S := secq256k1.
Notation har := (har F).
Notation has := (has F).
Notation all c vs xs := (Forall2 (has c) vs xs).
Notation bitsof x n := (map (bit F x) (seq 0 n)).
Let Hp' : (2 ^ 254 <= pchar F)%Z. Proof. lia. Qed.
Let HS : facts S. Proof. apply valid_facts. now right. Qed.
Implicit Types (c : tcs F).

(** ** Building without a panic *)
Definition rtot {A} (m : CR F A) (Q : A -> Prop) : Prop := forall c, exists a c', m c = Ok (a, c') /\ Q a.
Lemma tt_lift {A} (m : CS F A) (Q : A -> Prop) : (forall c, Q (fst (m c))) -> rtot (lift m) Q.
Proof. intros H c. exists (fst (m c)), (snd (m c)). unfold lift. rewrite <- surjective_pairing. auto. Qed.
Lemma tt_bind {A B} (m : CR F A) (f : A -> CR F B) Q1 Q : rtot m Q1 -> (forall a, Q1 a -> rtot (f a) Q) -> rtot (rbnd m f) Q.
Proof. intros Hm Hf c. destruct (Hm c) as (a & c1 & E & H). unfold rbnd. rewrite E. exact (Hf a H c1). Qed.
Lemma tt_ret {A} (a : A) (Q : A -> Prop) : Q a -> rtot (rret a) Q.
Proof. intros H c. exists a, c. auto. Qed.
Lemma tt_res {A} (r : res A) (Q : A -> Prop) a : r = Ok a -> Q a -> rtot (of_res r) Q.
Proof. intros -> H c. exists a, c. auto. Qed.
Lemma tt_require b : b = true -> rtot (require b) (fun _ => True).
Proof. intros -> c. exists tt, c. auto. Qed.
Lemma tt_stat {A} (m : CR F A) Q : rtot m Q -> rstat F m Q.
Proof. intros H c a c' E. destruct (H c) as (a1 & c1 & E1 & H1). rewrite E in E1. apply Ok_inj in E1. now injection E1 as -> ->. Qed.

Lemma new_variables_len vs : forall c, length (fst (new_variables F vs c)) = length vs.
Proof.
  induction vs as [|v vs IH]; intros c; cbn [new_variables]; [reflexivity|]. rewrite bnd_eq. unfold new_variable. cbn [fst snd]. rewrite bnd_eq.
  cbn [ret fst snd length]. now rewrite IH.
Qed.
Lemma range_len v n c : length (fst (range_check F v n c)) = n.
Proof.
  rewrite range_check_body. cbn beta. rewrite bnd_eq. set (vs := map _ _). set (b := fst (new_variables F vs c)).
  assert (L : length b = n) by (unfold b, vs; now rewrite new_variables_len, map_length, seq_length).
  transitivity (length b); [|exact L]. unfold range_body. destruct (rev b); [reflexivity|].
  rewrite !bnd_eq. reflexivity.
Qed.
Lemma mapM_lenB {A B} (f : A -> CS F B) l : forall c, length (fst (RescueModel.mapM F f l c)) = length l.
Proof. induction l as [|a l IH]; intros c; cbn [RescueModel.mapM]; [reflexivity|]. rewrite !bnd_eq. cbn [ret fst length]. now rewrite IH. Qed.
Lemma mapM_static {A B} (f : A -> CS F B) (Q : A -> B -> Prop) l : (forall a c, Q a (fst (f a c))) -> forall c, Forall2 Q l (fst (RescueModel.mapM F f l c)).
Proof. intros H. induction l as [|a l IH]; intros c; cbn [RescueModel.mapM]; [constructor|]. rewrite !bnd_eq. cbn [ret fst]. constructor; auto. Qed.

Definition six (v : simvar F) : Prop := length (svar v) = 6%nat.
Lemma tt_alloc_witness (v : sim F) : red v = Strict ->
  rtot (alloc_witness S v) (fun ob => sv (fst ob) = mkSim (limbs v) (sval v) ByOne /\ six (fst ob) /\ length (snd ob) = 256%nat).
Proof.
  intros Hr. unfold alloc_witness. eapply tt_bind; [apply tt_require; now rewrite Hr|]. intros _ _. apply tt_lift. intros c.
  rewrite bnd_eq. cbn [ret fst snd sv svar]. split; [reflexivity|]. unfold six. cbn [svar]. split; [now rewrite map_length, mapM_lenB|].
  assert (H : Forall2 (fun i p => length (snd p) = width S i) (seq 0 NUM_OF_LIMBS)
    (fst (RescueModel.mapM F (fun i => bnd (new_variable F (nth i (limbs v) 0)) (fun o => bnd (range_check F o (width S i)) (fun b => ret (o, b)))) (seq 0 NUM_OF_LIMBS) c))).
  { apply (mapM_static _ (fun i (p : nat * list nat) => length (snd p) = width S i)). intros i c1. rewrite !bnd_eq. cbn [ret fst snd]. apply range_len. }
  revert H. set (l := fst _). clearbody l. intros H. unfold NUM_OF_LIMBS in H. cbn [seq] in H.
  repeat match goal with H : Forall2 _ (_ :: _) _ |- _ => inversion H; clear H; subst | H : Forall2 _ [] _ |- _ => inversion H; clear H; subst end.
  cbn [flat_map]. rewrite app_nil_r, !app_length. repeat match goal with H : length (snd _) = _ |- _ => rewrite H; clear H end. reflexivity.
Qed.
Lemma tt_alloc_input (v : sim F) : rtot (lift (alloc_input v)) (fun o => sv o = v /\ six o).
Proof. apply tt_lift. intros c. unfold alloc_input. rewrite bnd_eq. cbn [ret fst sv svar]. split; [reflexivity|]. unfold six. cbn [svar]. now rewrite mapM_lenB. Qed.
Lemma tt_check_keys pk sk skb m : rtot (lift (check_keys F pk sk skb m)) (fun kb => length (fst kb) = 512%nat /\ length (snd kb) = 256%nat).
Proof.
  apply tt_lift. intros c. destruct pk as [[p0 p1] p2]. unfold check_keys. rewrite !bnd_eq. cbn [ret fst snd]. rewrite !app_length, !range_len. auto.
Qed.

(** A representation with its reducibility. *)
Definition sta (v : simvar F) (x : Z) (r : reducibility) : Prop := represents S (sv v) x /\ red (sv v) = r.
Definition msta (m : simulvar F) (n x : Z) : Prop := mrepresents S (mv m) x /\ prod_additions (mv m) = n.
Lemma represents_one x : (0 <= x < modulus S)%Z -> represents S (mkSim (limbs (sim_from F S x)) (sval (sim_from F S x)) ByOne) x.
Proof.
  intros Hx. destruct (from_represents F Hp' S x HS Hx) as ((L & O & _) & N & V & B). split; [split; [exact L|split; [exact O|exact I]]|].
  split; [exact N|]. split; [exact V|]. cbn [red additions]. lia.
Qed.
Lemma of_range (x : K) : (0 <= toZ x < modulus S)%Z. Proof. rewrite <- HK. apply toZ_range. Qed.
Lemma sta_mul a b x y : sta a x ByOne -> sta b y Strict -> mrepresents S (sim_mul (sv a) (sv b)) (x * y) /\ prod_additions (sim_mul (sv a) (sv b)) = 2%Z.
Proof.
  intros [Ra A] [Rb B]. split; [|cbn [sim_mul prod_additions]; now rewrite A, B].
  apply mul_represents; auto. cbn [sim_mul prod_additions]. rewrite A, B. unfold CAP. cbn. lia.
Qed.
Lemma sta_add (u v : simul F) x y n : (0 <= n <= 100)%Z -> mrepresents S u x /\ prod_additions u = 2%Z -> mrepresents S v y /\ prod_additions v = n ->
  mrepresents S (simul_add u v) (x + y) /\ prod_additions (simul_add u v) = (2 + n)%Z.
Proof.
  intros Hn [Ru U] [Rv V]. split; [|cbn [simul_add prod_additions]; now rewrite U, V].
  apply add_represents; auto. cbn [simul_add prod_additions]. rewrite U, V. unfold CAP. lia.
Qed.
Lemma tt_mul a b x y : sta a x ByOne -> sta b y Strict -> rtot (lift (var_mul a b)) (fun m => msta m 2 (x * y)).
Proof. intros A B. apply tt_lift. intros c. unfold var_mul. rewrite bnd_eq. cbn [ret fst]. unfold msta. cbn [mv]. now apply sta_mul. Qed.
Lemma tt_mul_add a b m x y n z : sta a x ByOne -> sta b y Strict -> msta m n z -> (0 <= n <= 100)%Z ->
  rtot (lift (bnd (var_mul a b) (fun o => mulvar_add o m))) (fun o => msta o (2 + n) (x * y + z)).
Proof.
  intros A B M Hn. apply tt_lift. intros c. unfold var_mul. rewrite !bnd_eq. cbn [ret fst]. unfold mulvar_add. rewrite bnd_eq. cbn [ret fst]. unfold msta. cbn [mv].
  apply sta_add; [exact Hn|now apply sta_mul|exact M].
Qed.
Lemma sta_sub a b x y : sta a x Strict -> sta b y ByOne ->
  exists v, sim_sub S (sv a) (sv b) = Ok v /\ represents S v (x + pad_value S - y) /\ red v = Others 3.
Proof.
  intros [Ra A] [Rb B]. destruct (sub_represents F Hp' S _ _ x y HS Ra Rb) as (v & H1 & H2 & H3); [now rewrite B|rewrite A; unfold CAP; cbn; lia|].
  rewrite A in H3. exists v. auto.
Qed.
Lemma tt_sub a b x y : sta a x Strict -> sta b y ByOne -> rtot (var_sub S a b) (fun o => sta o (x + pad_value S - y) (Others 3)).
Proof.
  intros A B. destruct (sta_sub a b x y A B) as (v & E & H1 & H2). unfold var_sub. eapply tt_bind; [apply (tt_res _ (fun u => u = v) v E eq_refl)|]. intros u ->.
  apply tt_lift. intros c. rewrite bnd_eq. cbn [ret fst]. split; assumption.
Qed.
Lemma sta_msub m b x y n : msta m n x -> sta b y (Others 3) -> (n <= 100)%Z ->
  exists v, simul_sub S (mv m) (sv b) = Ok v /\ mrepresents S v (x + 4 * pad_value S - y) /\ prod_additions v = (n + 12)%Z.
Proof.
  intros [Rm M] [Rb B] Hn. destruct (msub_represents F Hp' S _ _ x y HS Rm Rb) as (v & H1 & H2 & H3); [rewrite B; cbn; lia|rewrite M; unfold CAP; lia|].
  rewrite M in H3. exists v. auto.
Qed.
Lemma tt_msub m b x y n : msta m n x -> sta b y (Others 3) -> (n <= 100)%Z -> rtot (mulvar_sub S m b) (fun o => msta o (n + 12) (x + 4 * pad_value S - y)).
Proof.
  intros M B Hn. destruct (sta_msub m b x y n M B Hn) as (v & E & H1 & H2). unfold mulvar_sub. eapply tt_bind; [apply (tt_res _ (fun u => u = v) v E eq_refl)|]. intros u ->.
  apply tt_lift. intros c. rewrite bnd_eq. cbn [ret fst]. split; assumption.
Qed.
Lemma tt_zero m n x : msta m n x -> (n < 32)%Z -> (x mod modulus S = 0)%Z -> rtot (var_enforce_zero S m) (fun _ => True).
Proof.
  intros [R M] Hn Hx. unfold var_enforce_zero. destruct (multiple_ready F Hp' S (mv m) x HS R ltac:(lia) Hx) as (E3 & Rd & Hk). cbn zeta in *.
  eapply tt_bind; [apply tt_require; apply Z.ltb_lt; lia|]. intros _ _.
  eapply tt_bind; [apply (tt_res _ (fun u => u = x) x); [now apply (minto_represents F S)|reflexivity]|]. intros u ->. cbn zeta.
  eapply tt_bind; [|intros _ _; apply tt_lift; auto]. apply tt_require.
  rewrite E3. apply forallb_forall. intros g Hg. apply in_map_iff in Hg. destruct Hg as [[[l r] k] [<- Hz]].
  destruct Rd as [Rg _]. rewrite Forall_forall in Rg. specialize (Rg _ Hz). cbn [toF3 fst snd]. pose proof (st2_le S HS). pose proof (st3_le S HS). pose proof (f_st S HS).
  destruct Rg as [(-> & Hl & Hr) | (-> & Hl & Hr)]; rewrite toZ_small by lia; apply Z.ltb_lt; [rewrite pad2|rewrite pad1]; nia.
Qed.
(** The equation of the values. *)
Definition total_of (X Y W RX RY RS l1 l2 b0 b1 b2 rsp : Z) : Z :=
  (RS * l2 + (W * b2 + (RY * l1 + (Y * b1 + X * b0))) + 4 * pad_value S - (rsp + pad_value S - RX))%Z.
Lemma total_zero X Y W RX RY RS l1 l2 b0 b1 b2 rsp :
  ((b0 * X + RX + (b1 * Y + l1 * RY) + (b2 * W + l2 * RS) - rsp) mod modulus S = 0 -> total_of X Y W RX RY RS l1 l2 b0 b1 b2 rsp mod modulus S = 0)%Z.
Proof.
  intros H. pose proof (f_mod S HS) as HM. pose proof (f_pmod S HS) as HQ. apply Z.mod_divide in H, HQ; try lia. apply Z.mod_divide; [lia|].
  unfold total_of. match goal with |- (_ | ?R) => match type of H with (_ | ?L) => replace R with (L + 3 * pad_value S)%Z by ring end end.
  apply Z.divide_add_r; [exact H|now apply Z.divide_mul_r].
Qed.
Lemma tt_schnorr x y s v X Y W RX RY RS l1 l2 b0 b1 b2 rsp :
  sta x X ByOne -> sta y Y ByOne -> sta s W ByOne -> sta (v_rx F v) RX ByOne -> sta (v_ry F v) RY ByOne -> sta (v_rs F v) RS ByOne ->
  sta (v_l1 F v) l1 Strict -> sta (v_l2 F v) l2 Strict -> sta (v_b0 F v) b0 Strict -> sta (v_b1 F v) b1 Strict -> sta (v_b2 F v) b2 Strict -> sta (v_resp F v) rsp Strict ->
  (total_of X Y W RX RY RS l1 l2 b0 b1 b2 rsp mod modulus S = 0)%Z ->
  rtot (schnorr_equation F x y s v) (fun _ => True).
Proof.
  intros Hx Hy Hs Hrx Hry Hrs H1 H2 H3 H4 H5 H6 HE. unfold schnorr_equation.
  eapply tt_bind; [eapply tt_mul; eassumption|]. intros m0 M0; cbn beta in M0.
  eapply tt_bind; [eapply tt_mul_add; [eassumption..|lia]|]. intros m1 M1; cbn beta in M1. eapply tt_bind; [eapply tt_mul_add; [eassumption..|lia]|]. intros m2 M2; cbn beta in M2.
  eapply tt_bind; [eapply tt_mul_add; [eassumption..|lia]|]. intros m3 M3; cbn beta in M3. eapply tt_bind; [eapply tt_mul_add; [eassumption..|lia]|]. intros m4 M4; cbn beta in M4.
  eapply tt_bind; [eapply tt_sub; eassumption|]. intros rhs Hr; cbn beta in Hr. eapply tt_bind; [eapply tt_msub; [eassumption..|lia]|]. intros d Hd; cbn beta in Hd.
  eapply tt_zero; [exact Hd|lia|exact HE].
Qed.

(** ** Honest runs *)
Lemma hr_stat {A} (m : CR F A) c Q T : rtot m T -> har m c Q -> har m c (fun a c' => T a /\ Q a c').
Proof. intros HT (a & c' & E & H1 & H2 & H3). exists a, c'. split; [exact E|]. split; [exact H1|]. split; [exact H2|]. split; [exact (tt_stat m T HT c a c' E)|exact H3]. Qed.
Definition hon c (v : simvar F) (x : Z) (r : reducibility) : Prop := honest_leaf F c v /\ sta v x r.
Definition mhon c (m : simulvar F) (n x : Z) : Prop := all c (mvar m) (mlimbs (mv m)) /\ msta m n x.
Lemma hon_mono c c' v x r : extends c c' -> hon c v x r -> hon c' v x r.
Proof. intros X [H1 H2]. split; [eapply all_mono; eassumption|exact H2]. Qed.
Lemma mhon_mono c c' v x r : extends c c' -> mhon c v x r -> mhon c' v x r.
Proof. intros X [H1 H2]. split; [eapply all_mono; eassumption|exact H2]. Qed.
Lemma h_mul a b x y c : Inv c -> hon c a x ByOne -> hon c b y Strict -> har (lift (var_mul a b)) c (fun m c' => mhon c' m 2 (x * y)).
Proof.
  intros HI [La Sa] [Lb Sb]. eapply hr_weak; [eapply hr_stat; [exact (tt_mul a b x y Sa Sb)|apply hr_lift, var_mul_ha; assumption]|].
  intros m c' _ _ (H1 & _ & H2). split; assumption.
Qed.
Lemma h_mul_add a b m x y n z c : Inv c -> hon c a x ByOne -> hon c b y Strict -> mhon c m n z -> (0 <= n <= 100)%Z ->
  har (lift (bnd (var_mul a b) (fun o => mulvar_add o m))) c (fun o c' => mhon c' o (2 + n) (x * y + z)).
Proof.
  intros HI [La Sa] [Lb Sb] [Lm Sm] Hn. eapply hr_weak; [apply (hr_stat _ c (fun o c' => all c' (mvar o) (mlimbs (mv o))) _ (tt_mul_add a b m x y n z Sa Sb Sm Hn)); apply hr_lift|].
  - eapply hb; [apply var_mul_ha; assumption|]. intros o c1 I1 X1 [_ Ho]. eapply hw; [apply mulvar_add_ha; [exact I1|exact Ho|eapply all_mono; eassumption]|]. intros o2 c2 _ _ [_ H]. exact H.
  - intros o c' _ _ (H1 & H2). split; assumption.
Qed.
Lemma h_schnorr x y s v X Y W RX RY RS l1 l2 b0 b1 b2 rsp c : Inv c ->
  hon c x X ByOne -> hon c y Y ByOne -> hon c s W ByOne -> hon c (v_rx F v) RX ByOne -> hon c (v_ry F v) RY ByOne -> hon c (v_rs F v) RS ByOne ->
  hon c (v_l1 F v) l1 Strict -> hon c (v_l2 F v) l2 Strict -> hon c (v_b0 F v) b0 Strict -> hon c (v_b1 F v) b1 Strict -> hon c (v_b2 F v) b2 Strict ->
  hon c (v_resp F v) rsp Strict -> (total_of X Y W RX RY RS l1 l2 b0 b1 b2 rsp mod modulus S = 0)%Z ->
  har (schnorr_equation F x y s v) c (fun _ _ => True).
Proof.
  intros HI Hx Hy Hs Hrx Hry Hrs H1 H2 H3 H4 H5 H6 HE. unfold schnorr_equation.
  Ltac up X := repeat match goal with H : hon ?c _ _ _ |- _ => apply (hon_mono _ _ _ _ _ X) in H end.
  eapply hr_bind; [eapply h_mul; eassumption|]. intros m0 c1 I1 X1 M0; cbn beta in M0. up X1.
  eapply hr_bind; [eapply h_mul_add; [eassumption..|lia]|]. intros m1 c2 I2 X2 M1; cbn beta in M1. up X2.
  eapply hr_bind; [eapply h_mul_add; [eassumption..|lia]|]. intros m2 c3 I3 X3 M2; cbn beta in M2. up X3.
  eapply hr_bind; [eapply h_mul_add; [eassumption..|lia]|]. intros m3 c4 I4 X4 M3; cbn beta in M3. up X4.
  eapply hr_bind; [eapply h_mul_add; [eassumption..|lia]|]. intros m4 c5 I5 X5 M4; cbn beta in M4. up X5.
  change (2 + (2 + (2 + (2 + 2))))%Z with 10%Z in M4.
  destruct (sta_sub _ _ _ _ (proj2 H6) (proj2 Hrx)) as (vr & Er & Rr & Ar).
  eapply hr_bind; [apply (var_sub_ha F S _ _ vr); [exact I5|apply H6|apply Hrx|exact Er]|]. intros rhs c6 I6 X6 [Vr Lr].
  assert (Sr : sta rhs (rsp + pad_value S - RX) (Others 3)) by (split; rewrite Vr; assumption).
  destruct (sta_msub _ _ _ _ _ (proj2 M4) Sr ltac:(lia)) as (vd & Ed & Rd & Ad).
  eapply hr_bind; [apply (mulvar_sub_ha F S _ _ vd); [exact I6|eapply all_mono; [exact X6|apply M4]|rewrite Vr; exact Lr|exact Ed]|]. intros d c7 I7 X7 [Vd Ld].
  eapply (var_enforce_zero_ha F Hp' S d); [exact HS|exact I7|rewrite Vd; exact Ld|rewrite Vd; exact Rd|rewrite Vd, Ad; reflexivity|exact HE].
Qed.
End Honest.
