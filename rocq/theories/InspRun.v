(** Inspection: which witnesses build without a panic, and honest runs. *)
From Coq Require Import List ZArith NArith Bool Lia ZifyBool ZifyNat ZifyN Field.
From Verif Require Import Base Field PField UtilsModel TurboModel TurboSpec TurboProofs TurboHonest TurboKit TurboEmit Power RescueModel RescueSpec RescueProofs
  MixModel MixLemmas AxfrModel AxfrProofs AxfrHonest FoldModel SimModel SimSpec SimProofs SimZero SimCircuit SimHonest SimAlloc
  NoteProofs AfoldModel AfoldEmit AfoldProofs AfoldHonest AfoldRun AfoldWhole InspModel InspSpec InspProofs.
Import ListNotations.
Local Open Scope Z_scope.

Section Honest.
Context (F K : PField) (Hp : 2 ^ 254 < pchar F) (P : rescue_instance F) (HP : rescue_ok F P) (e : N) (He : exp_inv F 5 e).
Context (HK : pchar K = modulus ristretto).
Add Field Fih : (f_th F).
Add Field Kih : (f_th K).
Local Open Scope F_scope.
Notation S := ristretto.
Notation har := (har F).
Notation has := (has F).
Notation ha := (ha F).
Notation all c vs xs := (Forall2 (has c) vs xs).
Notation rtot := (rtot F). Notation six := (six F).
Let Hp' : (2 ^ 254 <= pchar F)%Z. Proof. lia. Qed.
Let HV : valid S. Proof. now left. Qed.
Let HS : facts S. Proof. apply valid_facts. exact HV. Qed.
Implicit Types (c : tcs F).

(** ** Building without a panic *)
Definition rsta (v : simvar F) (x : Z) (r : reducibility) : Prop := represents S (sv v) x /\ red (sv v) = r.
Definition rmsta (m : simulvar F) (n x : Z) : Prop := mrepresents S (mv m) x /\ prod_additions (mv m) = n.
Lemma rof_range (x : K) : (0 <= toZ x < modulus S)%Z. Proof. rewrite <- HK. apply toZ_range. Qed.
Lemma range253 (x : K) : (0 <= toZ x < 2 ^ 253)%Z.
Proof. pose proof (rof_range x). assert (modulus S < 2 ^ 253)%Z by reflexivity. lia. Qed.
Definition low (r : reducibility) : Prop := r = Strict \/ r = ByOne.
Lemma rsta_mul a b x y r : rsta a x Strict -> rsta b y r -> low r ->
  mrepresents S (sim_mul (sv a) (sv b)) (x * y) /\ prod_additions (sim_mul (sv a) (sv b)) = (additions r + 1)%Z.
Proof.
  intros [Ra A] [Rb B] Hr. assert (E : prod_additions (sim_mul (sv a) (sv b)) = (additions r + 1)%Z) by (cbn [sim_mul prod_additions]; rewrite A, B; destruct Hr as [-> | ->]; reflexivity).
  split; [|exact E]. apply mul_represents; auto. rewrite E. destruct Hr as [-> | ->]; unfold CAP; cbn; lia.
Qed.
Lemma rsta_add (u v : simul F) x y n m : (0 <= n <= 100)%Z -> (0 <= m <= 100)%Z -> mrepresents S u x /\ prod_additions u = n -> mrepresents S v y /\ prod_additions v = m ->
  mrepresents S (simul_add u v) (x + y) /\ prod_additions (simul_add u v) = (n + m)%Z.
Proof.
  intros Hn Hm [Ru U] [Rv V]. split; [|cbn [simul_add prod_additions]; now rewrite U, V].
  apply add_represents; auto. cbn [simul_add prod_additions]. rewrite U, V. unfold CAP. lia.
Qed.
Lemma tr_mul a b x y r : rsta a x Strict -> rsta b y r -> low r -> rtot (lift (var_mul a b)) (fun m => rmsta m (additions r + 1) (x * y)).
Proof. intros A B R. apply tt_lift. intros c. unfold var_mul. rewrite bnd_eq. cbn [ret fst]. unfold rmsta. cbn [mv]. now apply rsta_mul. Qed.
Lemma tr_add a b x y n m : rmsta a n x -> rmsta b m y -> (0 <= n <= 100)%Z -> (0 <= m <= 100)%Z -> rtot (lift (mulvar_add a b)) (fun o => rmsta o (n + m) (x + y)).
Proof. intros A B Hn Hm. apply tt_lift. intros c. unfold mulvar_add. cbn zeta. rewrite bnd_eq. cbn [ret fst]. unfold rmsta. cbn [mv]. now apply rsta_add. Qed.
Lemma rsta_sub a b x y : rsta a x Strict -> rsta b y ByOne ->
  exists v, sim_sub S (sv a) (sv b) = Ok v /\ represents S v (x + pad_value S - y) /\ red v = Others 3.
Proof.
  intros [Ra A] [Rb B]. destruct (sub_represents F Hp' S _ _ x y HS Ra Rb) as (v & H1 & H2 & H3); [now rewrite B|rewrite A; unfold CAP; cbn; lia|].
  rewrite A in H3. exists v. auto.
Qed.
Lemma tr_sub a b x y : rsta a x Strict -> rsta b y ByOne -> rtot (var_sub S a b) (fun o => rsta o (x + pad_value S - y) (Others 3)).
Proof.
  intros A B. destruct (rsta_sub a b x y A B) as (v & E & H1 & H2). unfold var_sub. eapply tt_bind; [apply (tt_res F _ (fun u => u = v) v E eq_refl)|]. intros u ->.
  apply tt_lift. intros c. rewrite bnd_eq. cbn [ret fst]. split; assumption.
Qed.
Lemma rsta_msub m b x y n : rmsta m n x -> rsta b y (Others 3) -> (n <= 100)%Z ->
  exists v, simul_sub S (mv m) (sv b) = Ok v /\ mrepresents S v (x + 4 * pad_value S - y) /\ prod_additions v = (n + 12)%Z.
Proof.
  intros [Rm M] [Rb B] Hn. destruct (msub_represents F Hp' S _ _ x y HS Rm Rb) as (v & H1 & H2 & H3); [rewrite B; cbn; lia|rewrite M; unfold CAP; lia|].
  rewrite M in H3. exists v. auto.
Qed.
Lemma tr_msub m b x y n : rmsta m n x -> rsta b y (Others 3) -> (n <= 100)%Z -> rtot (mulvar_sub S m b) (fun o => rmsta o (n + 12) (x + 4 * pad_value S - y)).
Proof.
  intros M B Hn. destruct (rsta_msub m b x y n M B Hn) as (v & E & H1 & H2). unfold mulvar_sub. eapply tt_bind; [apply (tt_res F _ (fun u => u = v) v E eq_refl)|]. intros u ->.
  apply tt_lift. intros c. rewrite bnd_eq. cbn [ret fst]. split; assumption.
Qed.
Lemma tr_zero m n x : rmsta m n x -> (n < 32)%Z -> (x mod modulus S = 0)%Z -> rtot (var_enforce_zero S m) (fun _ => True).
Proof.
  intros [R M] Hn Hx. unfold var_enforce_zero. destruct (multiple_ready F Hp' S (mv m) x HS R ltac:(lia) Hx) as (E3 & Rd & Hk). cbn zeta in *.
  eapply tt_bind; [apply tt_require; apply Z.ltb_lt; lia|]. intros _ _.
  eapply tt_bind; [apply (tt_res F _ (fun u => u = x) x); [now apply (minto_represents F S)|reflexivity]|]. intros u ->. cbn zeta.
  eapply tt_bind; [|intros _ _; apply tt_lift; auto]. apply tt_require.
  rewrite E3. apply forallb_forall. intros g Hg. apply in_map_iff in Hg. destruct Hg as [[[l r] k] [<- Hz]].
  destruct Rd as [Rg _]. rewrite Forall_forall in Rg. specialize (Rg _ Hz). cbn [toF3 fst snd]. pose proof (st2_le S HS). pose proof (st3_le S HS). pose proof (f_st S HS).
  destruct Rg as [(-> & Hl & Hr) | (-> & Hl & Hr)]; rewrite toZ_small by lia; apply Z.ltb_lt; [rewrite pad2|rewrite pad1]; nia.
Qed.
(** Allocations. *)
Definition rista (v : simvar F) (x : K) : Prop := sv v = rsim_of F K x /\ six v.
Definition rwsta (v : simvar F) (x : K) : Prop := sv v = mkSim (limbs (rsim_of F K x)) (toZ x) ByOne /\ six v.
Lemma rista_sta v x : rista v x -> rsta v (toZ x) Strict.
Proof. intros [E _]. split; rewrite E; [exact (from_represents F Hp' S (toZ x) HS (rof_range x))|reflexivity]. Qed.
Lemma rwsta_sta v x : rwsta v x -> rsta v (toZ x) ByOne.
Proof.
  intros [E _]. split; rewrite E; [|reflexivity]. destruct (from_represents F Hp' S (toZ x) HS (rof_range x)) as ((L & O & _) & N & V & B).
  split; [split; [exact L|split; [exact O|exact I]]|]. split; [exact N|]. split; [reflexivity|]. cbn [red additions]. pose proof (rof_range x). lia.
Qed.
Lemma tr_input x : rtot (lift (alloc_input (rsim_of F K x))) (fun o => rista o x).
Proof. apply (tt_alloc_input F). Qed.
Lemma tr_witness x : rtot (alloc_witness S (rsim_of F K x)) (fun ob => rwsta (fst ob) x).
Proof.
  unfold alloc_witness. eapply tt_bind; [now apply tt_require|]. intros _ _. apply tt_lift. intros c.
  rewrite bnd_eq. cbn [ret fst snd]. split; [reflexivity|]. unfold AfoldHonest.six. cbn [svar]. now rewrite map_length, (mapM_lenB F).
Qed.
(** The bits left at each limb of a bounded allocation are none or at least two. *)
Fixpoint rem_ok (js : list nat) (n : nat) : Prop :=
  match js with
  | [] => True
  | _ :: js' => (n = 0 \/ 2 <= Nat.min n (BIT_PER_LIMB S))%nat /\ rem_ok js' (n - Nat.min n (BIT_PER_LIMB S))
  end.
Lemma tr_loop v : forall js n, rem_ok js n -> rtot (bounded_loop F S v js n) (fun r => length (fst r) = length js).
Proof.
  induction js as [|j js IH]; intros n Hn; cbn [bounded_loop]; [now apply tt_ret|]. destruct Hn as [Hn Hr].
  destruct (Nat.eqb_spec n 0) as [-> | N0].
  - eapply tt_bind; [apply IH; exact Hr|]. intros r L. apply tt_ret. cbn. now rewrite L.
  - cbn zeta. eapply tt_bind; [apply tt_require; apply Nat.leb_le; lia|]. intros _ _. eapply tt_bind; [apply (tt_any F)|]. intros ob _.
    eapply tt_bind; [apply IH; exact Hr|]. intros r L. apply tt_ret. cbn. now rewrite L.
Qed.
Lemma tr_bounded x n : rem_ok (seq 0 6) n -> n <> 253%nat -> rtot (alloc_witness_bounded_total_bits S (rsim_of F K x) n) (fun ob => rista (fst ob) x).
Proof.
  intros Hr Hn. unfold alloc_witness_bounded_total_bits. eapply tt_bind; [now apply tt_require|]. intros _ _.
  eapply tt_bind; [apply tr_loop; exact Hr|]. intros r L. apply tt_ret. unfold rista. cbn [fst sv svar]. apply Nat.eqb_neq in Hn. rewrite Hn. split; [reflexivity|exact L].
Qed.
Lemma rem64 : rem_ok (seq 0 6) 64. Proof. cbn. lia. Qed.
Lemma rem240 : rem_ok (seq 0 6) 240.
Proof. change (rem_ok (seq 0 6) 240) with ((240 = 0 \/ 2 <= 43)%nat /\ (197 = 0 \/ 2 <= 43)%nat /\ (154 = 0 \/ 2 <= 43)%nat /\ (111 = 0 \/ 2 <= 43)%nat /\ (68 = 0 \/ 2 <= 43)%nat /\ (25 = 0 \/ 2 <= 25)%nat /\ True). lia. Qed.
Definition alloc_sta (v : insp_v F) (x y a b beta lambda resp : K) : Prop :=
  rista (i_x F v) x /\ rista (i_y F v) y /\ rwsta (i_a F v) a /\ rwsta (i_b F v) b /\ rista (i_beta F v) beta /\ rista (i_lambda F v) lambda /\
  rista (i_bl F v) (beta * lambda) /\ rista (i_resp F v) resp.
Lemma tr_alloc x y a b comm r beta lambda resp : rtot (insp_alloc F K x y a b comm r beta lambda resp) (fun v => alloc_sta v x y a b beta lambda resp).
Proof.
  unfold insp_alloc. eapply tt_bind; [apply tr_bounded; [apply rem64|lia]|]. intros ? ?. eapply tt_bind; [apply tr_bounded; [apply rem240|lia]|]. intros ? ?.
  do 2 (eapply tt_bind; [apply tr_witness|]; intros ? ?). do 2 (eapply tt_bind; [apply (tt_any F)|]; intros ? _).
  do 4 (eapply tt_bind; [apply tr_input|]; intros ? ?). apply tt_ret. unfold alloc_sta. cbn. auto 10.
Qed.
Definition rtotal (X Y A B beta bl lambda rsp : Z) : Z := (beta * X + bl * Y + lambda * B + 4 * pad_value S - (rsp + pad_value S - A))%Z.
Lemma rtotal_zero (x y a b s beta lambda : K) : two_equations x y a b s beta lambda ->
  (rtotal (toZ x) (toZ y) (toZ a) (toZ b) (toZ beta) (toZ (beta * lambda)) (toZ lambda) (toZ s) mod modulus S = 0)%Z.
Proof.
  intros H. pose proof (f_mod S HS) as HM. pose proof (f_pmod S HS) as HQ. apply Z.mod_divide in HQ; [|lia]. apply Z.mod_divide; [lia|].
  assert (E : (modulus S | toZ beta * toZ x + toZ (beta * lambda)%F * toZ y + toZ lambda * toZ b + toZ a - toZ s)%Z).
  { apply Z.mod_divide; [lia|]. rewrite <- HK. apply (proj1 (fofZ_zero K _)). rewrite fofZ_sub, !fofZ_add, !fofZ_mul, !fofZ_toZ. unfold two_equations in H. rewrite <- H. ring. }
  unfold rtotal. match goal with |- (_ | ?R) => match type of E with (_ | ?L) => replace R with (L + 3 * pad_value S)%Z by ring end end.
  apply Z.divide_add_r; [exact E|now apply Z.divide_mul_r].
Qed.
Lemma tr_equation v x y a b beta lambda resp : alloc_sta v x y a b beta lambda resp -> two_equations x y a b resp beta lambda -> rtot (insp_equation F v) (fun _ => True).
Proof.
  intros (X & Y & A & B & Bt & L & BL & R) HE. apply rista_sta in X, Y, Bt, L, BL, R. apply rwsta_sta in A, B. unfold insp_equation.
  eapply tt_bind; [eapply (tr_mul _ _ _ _ Strict); [eassumption..|now left]|]. intros m0 M0; cbn beta in M0.
  eapply tt_bind; [eapply (tr_mul _ _ _ _ Strict); [eassumption..|now left]|]. intros m1 M1; cbn beta in M1.
  eapply tt_bind; [eapply (tr_mul _ _ _ _ ByOne); [eassumption..|now right]|]. intros m2 M2; cbn beta in M2.
  eapply tt_bind; [eapply tr_add; [eassumption..|cbn; lia|cbn; lia]|]. intros m3 M3; cbn beta in M3.
  eapply tt_bind; [eapply tr_add; [eassumption..|cbn; lia|cbn; lia]|]. intros m4 M4; cbn beta in M4.
  eapply tt_bind; [eapply tr_sub; eassumption|]. intros d Hd; cbn beta in Hd.
  eapply tt_bind; [eapply tr_msub; [eassumption..|cbn; lia]|]. intros q Hq; cbn beta in Hq.
  eapply tr_zero; [exact Hq|cbn; lia|]. exact (rtotal_zero _ _ _ _ _ _ _ HE).
Qed.
Lemma tr_open v x y a b beta lambda resp : alloc_sta v x y a b beta lambda resp -> rtot (insp_open F P e v) (fun _ => True).
Proof.
  intros ([_ X] & [_ Y] & [_ A] & [_ B] & _). unfold insp_open, AfoldHonest.six in *.
  eapply (tt_bind F _ _ (fun cl => length cl = 5%nat)).
  - apply tt_lift. intros c. unfold rcompress_cs. rewrite (mapM_lenB F), compress_len.
    set (l := svar (i_x F v) ++ _). assert (HL : length l = 24%nat) by (unfold l; rewrite !app_length; lia). clearbody l.
    replace (map (fun _ : nat => tt) l) with (repeat tt 24); [reflexivity|]. rewrite <- HL. clear. induction l; cbn; congruence.
  - intros cl L5. do 5 (destruct cl as [|? cl]; [discriminate L5|]). do 2 (eapply tt_bind; [apply (tt_any F)|]; intros ? _). apply (tt_any F).
Qed.
(** A witness whose circuit is built without a panic. *)
Definition insp_builds (w : insp_witness F K) : Prop :=
  exists x a y b rest s, iw_data w = (x, a) :: (y, b) :: rest /\ two_responses K (iw_resp w) (iw_lambda w) = Ok s /\
  two_equations x y a b s (iw_beta w) (iw_lambda w).
Lemma tr_body w am ty : insp_builds w -> rtot (insp_body F K P e w am ty) (fun l => length l = 25%nat).
Proof.
  intros (x & a & y & b & rest & s & E1 & E2 & HE). unfold insp_body. rewrite E1, E2.
  eapply tt_bind; [apply tr_alloc|]. intros v Hv; cbn beta in Hv. eapply tt_bind; [eapply tr_open; exact Hv|]. intros _ _.
  eapply tt_bind; [eapply tr_equation; eassumption|]. intros _ _. eapply tt_bind; [apply (tt_any F)|]. intros _ _. apply tt_ret.
  destruct Hv as (_ & _ & _ & _ & [_ B1] & [_ B2] & [_ B3] & [_ B4]). cbn [length]. rewrite !app_length. unfold AfoldHonest.six in *. lia.
Qed.

(** ** Honest runs *)
Definition rhon c (v : simvar F) (x : Z) (r : reducibility) : Prop := honest_leaf F c v /\ rsta v x r.
Definition rmhon c (m : simulvar F) (n x : Z) : Prop := all c (mvar m) (mlimbs (mv m)) /\ rmsta m n x.
Lemma rhon_mono c c' v x r : extends c c' -> rhon c v x r -> rhon c' v x r.
Proof. intros X [H1 H2]. split; [eapply all_mono; eassumption|exact H2]. Qed.
Lemma rmhon_mono c c' v x r : extends c c' -> rmhon c v x r -> rmhon c' v x r.
Proof. intros X [H1 H2]. split; [eapply all_mono; eassumption|exact H2]. Qed.
Lemma hi_mul a b x y r c : Inv c -> rhon c a x Strict -> rhon c b y r -> low r -> har (lift (var_mul a b)) c (fun m c' => rmhon c' m (additions r + 1) (x * y)).
Proof.
  intros HI [La Sa] [Lb Sb] R. eapply hr_weak; [eapply (hr_stat F); [exact (tr_mul a b x y r Sa Sb R)|apply hr_lift, var_mul_ha; assumption]|].
  intros m c' _ _ (H1 & _ & H2). split; assumption.
Qed.
Lemma hi_add a b x y n m c : Inv c -> rmhon c a n x -> rmhon c b m y -> (0 <= n <= 100)%Z -> (0 <= m <= 100)%Z ->
  har (lift (mulvar_add a b)) c (fun o c' => rmhon c' o (n + m) (x + y)).
Proof.
  intros HI [La Sa] [Lb Sb] Hn Hm. eapply hr_weak; [eapply (hr_stat F); [exact (tr_add a b x y n m Sa Sb Hn Hm)|apply hr_lift, mulvar_add_ha; assumption]|].
  intros o c' _ _ (H1 & _ & H2). split; assumption.
Qed.
Lemma hi_input (x : K) c : Inv c -> har (lift (alloc_input (rsim_of F K x))) c (fun o c' => rhon c' o (toZ x) Strict).
Proof.
  intros HI. pose proof (from_represents F Hp' S (toZ x) HS (rof_range x)) as R. apply hr_lift.
  eapply hw; [apply (alloc_input_ha F S (rsim_of F K x)); [exact R|exact HI]|]. intros o c' _ _ [H1 H2].
  split; [exact H1|]. split; rewrite H2; [exact R|reflexivity].
Qed.
Lemma hi_witness (x : K) c : Inv c -> har (alloc_witness S (rsim_of F K x)) c (fun ob c' => rhon c' (fst ob) (toZ x) ByOne).
Proof.
  intros HI. eapply hr_weak; [apply (alloc_witness_ha F Hp' S (toZ x) c HV); [exact (range253 x)|exact HI]|].
  intros ob c' _ _ (H1 & H2 & H3). split; [exact H1|split; assumption].
Qed.
(** The limbs fit the bits of a bounded allocation. *)
Fixpoint fits (l : list F) (js : list nat) (n : nat) : Prop :=
  match js with
  | [] => True
  | j :: js' => (if Nat.eqb n 0 then nth j l 0 = 0 else (2 <= Nat.min n (BIT_PER_LIMB S))%nat /\ (toZ (nth j l 0%F) < 2 ^ Z.of_nat (Nat.min n (BIT_PER_LIMB S)))%Z) /\
      fits l js' (n - Nat.min n (BIT_PER_LIMB S))
  end.
Lemma hi_loop v : forall js n c, fits (limbs v) js n -> Inv c -> har (bounded_loop F S v js n) c (fun r c' => all c' (fst r) (map (fun j => nth j (limbs v) 0) js)).
Proof.
  induction js as [|j js IH]; intros n c Hn HI; cbn [bounded_loop]; [apply hr_ret; [exact HI|constructor]|]. destruct Hn as [Hn Hr].
  destruct (Nat.eqb_spec n 0) as [-> | N0].
  - eapply hr_bind; [apply (IH 0%nat c); [exact Hr|exact HI]|]. intros r c1 I1 X1 HA. apply hr_ret; [exact I1|]. cbn [fst map]. constructor; [rewrite Hn; exact (has_zero F c1 I1)|exact HA].
  - destruct Hn as [H2 Hz]. cbn zeta. eapply hr_bind; [apply hr_require; [exact HI|apply Nat.leb_le; exact H2]|]. intros _ c0 I0 X0 _.
    eapply (hr_bind F _ _ _ (fun ob c' => has c' (fst ob) (nth j (limbs v) 0))).
    + apply hr_lift. eapply hb; [apply ha_new, I0|]. intros o c1 I1 X1 Ho.
      eapply hb; [apply (ha_range_check F c1 o _ (nth j (limbs v) 0) I1); [change (BIT_PER_LIMB S) with 43%nat in *; lia|exact Ho|exact Hz]|].
      intros b c2 I2 X2 _. apply hr; [exact I2|]. exact (has_mono F _ _ _ _ X2 Ho).
    + intros ob c1 I1 X1 Ho. eapply hr_bind; [apply (IH _ c1); [exact Hr|exact I1]|]. intros r c2 I2 X2 HA. apply hr_ret; [exact I2|]. cbn [fst map].
      constructor; [exact (has_mono F _ _ _ _ X2 Ho)|exact HA].
Qed.
Lemma hi_bounded (x : K) n c : fits (limbs (rsim_of F K x)) (seq 0 6) n -> n <> 253%nat -> Inv c ->
  har (alloc_witness_bounded_total_bits S (rsim_of F K x) n) c (fun ob c' => rhon c' (fst ob) (toZ x) Strict).
Proof.
  intros Hf Hn HI. unfold alloc_witness_bounded_total_bits. eapply hr_bind; [apply hr_require; [exact HI|reflexivity]|]. intros _ c0 I0 X0 _.
  eapply hr_bind; [apply hi_loop; [exact Hf|exact I0]|]. intros r c1 I1 X1 HA. apply hr_ret; [exact I1|]. apply Nat.eqb_neq in Hn. unfold rhon, honest_leaf, rsta. cbn [fst sv svar limbs sval red].
  rewrite Hn. split; [exact HA|]. split; [exact (from_represents F Hp' S (toZ x) HS (rof_range x))|reflexivity].
Qed.
Lemma small43 z : (0 <= z < 2 ^ 43)%Z -> toZ (fofZ z : F) = z.
Proof. intros H. apply toZ_small. assert (2 ^ 43 < 2 ^ 254)%Z by reflexivity. lia. Qed.
Lemma quarter z k : (0 <= z < 2 ^ (43 + k))%Z -> (0 <= k)%Z -> (0 <= z / 2 ^ 43 < 2 ^ k)%Z.
Proof. intros H Hk. split; [apply Z.div_pos; lia|]. apply Z.div_lt_upper_bound; [lia|]. rewrite <- Z.pow_add_r by lia. apply H. Qed.
Lemma fits64 x : (0 <= x < 2 ^ 64)%Z -> fits (limbs (sim_from F S x)) (seq 0 6) 64.
Proof.
  intros Hx. change (BIT_PER_LIMB S) with 43%nat. cbn [sim_from limbs digits NUM_OF_LIMBS]. change (step S) with (2 ^ 43)%Z.
  pose proof (quarter x 21 Hx ltac:(lia)) as H1. set (x1 := (x / 2 ^ 43)%Z) in *.
  assert (E1 : (x1 / 2 ^ 43 = 0)%Z) by (apply Z.div_small; lia). rewrite !E1, !Z.div_0_l, !Z.mod_0_l by lia. rewrite fofZ_0.
  cbn [seq fits]. change (BIT_PER_LIMB S) with 43%nat. cbn [Nat.eqb Nat.min Nat.sub nth].
  pose proof (Z.mod_pos_bound x (2 ^ 43) ltac:(lia)). rewrite (Z.mod_small x1) by lia. rewrite !small43 by lia.
  repeat split; try lia.
Qed.
Lemma fits240 x : (0 <= x < 2 ^ 240)%Z -> fits (limbs (sim_from F S x)) (seq 0 6) 240.
Proof.
  intros Hx. cbn [sim_from limbs digits NUM_OF_LIMBS]. change (step S) with (2 ^ 43)%Z.
  pose proof (quarter x 197 Hx ltac:(lia)) as H1. set (x1 := (x / 2 ^ 43)%Z) in *. pose proof (quarter x1 154 H1 ltac:(lia)) as H2. set (x2 := (x1 / 2 ^ 43)%Z) in *.
  pose proof (quarter x2 111 H2 ltac:(lia)) as H3. set (x3 := (x2 / 2 ^ 43)%Z) in *. pose proof (quarter x3 68 H3 ltac:(lia)) as H4. set (x4 := (x3 / 2 ^ 43)%Z) in *.
  pose proof (quarter x4 25 H4 ltac:(lia)) as H5. set (x5 := (x4 / 2 ^ 43)%Z) in *.
  assert (B : forall z, (0 <= z mod 2 ^ 43 < 2 ^ 43)%Z) by (intros z; apply Z.mod_pos_bound; lia).
  pose proof (B x). pose proof (B x1). pose proof (B x2). pose proof (B x3). pose proof (B x4). rewrite (Z.mod_small x5) by lia.
  clearbody x1 x2 x3 x4 x5. set (l := [_; _; _; _; _; _]).
  change (fits l (seq 0 6) 240) with
    (((2 <= 43)%nat /\ (toZ (fofZ (x mod 2 ^ 43)%Z : F) < 2 ^ 43)%Z) /\ ((2 <= 43)%nat /\ (toZ (fofZ (x1 mod 2 ^ 43)%Z : F) < 2 ^ 43)%Z) /\
     ((2 <= 43)%nat /\ (toZ (fofZ (x2 mod 2 ^ 43)%Z : F) < 2 ^ 43)%Z) /\ ((2 <= 43)%nat /\ (toZ (fofZ (x3 mod 2 ^ 43)%Z : F) < 2 ^ 43)%Z) /\
     ((2 <= 43)%nat /\ (toZ (fofZ (x4 mod 2 ^ 43)%Z : F) < 2 ^ 43)%Z) /\ ((2 <= 25)%nat /\ (toZ (fofZ x5 : F) < 2 ^ 25)%Z) /\ True).
  rewrite !small43 by lia. repeat split; lia.
Qed.
Definition alloc_hon c (v : insp_v F) (x y a b beta lambda resp : K) (comm r : F) : Prop :=
  rhon c (i_x F v) (toZ x) Strict /\ rhon c (i_y F v) (toZ y) Strict /\ rhon c (i_a F v) (toZ a) ByOne /\ rhon c (i_b F v) (toZ b) ByOne /\
  rhon c (i_beta F v) (toZ beta) Strict /\ rhon c (i_lambda F v) (toZ lambda) Strict /\ rhon c (i_bl F v) (toZ (beta * lambda)) Strict /\
  rhon c (i_resp F v) (toZ resp) Strict /\ has c (i_comm F v) comm /\ has c (i_r F v) r.
Lemma alloc_mono c c' v x y a b beta lambda resp comm r : extends c c' -> alloc_hon c v x y a b beta lambda resp comm r -> alloc_hon c' v x y a b beta lambda resp comm r.
Proof.
  intros X (H1 & H2 & H3 & H4 & H5 & H6 & H7 & H8 & H9 & H10). unfold alloc_hon. apply (rhon_mono _ _ _ _ _ X) in H1, H2, H3, H4, H5, H6, H7, H8.
  apply (has_mono F _ _ _ _ X) in H9, H10. auto 12.
Qed.
Lemma hi_alloc x y a b comm r beta lambda resp c : (toZ x < 2 ^ 64)%Z -> (toZ y < 2 ^ 240)%Z -> Inv c ->
  har (insp_alloc F K x y a b comm r beta lambda resp) c (fun v c' => alloc_hon c' v x y a b beta lambda resp comm r).
Proof.
  intros Hx Hy HI. unfold insp_alloc.
  eapply hr_bind; [apply (hi_bounded x 64 c); [apply fits64; split; [apply (toZ_range K)|exact Hx]|lia|exact HI]|]. intros vx c1 I1 X1 A1.
  eapply hr_bind; [apply (hi_bounded y 240 c1); [apply fits240; split; [apply (toZ_range K)|exact Hy]|lia|exact I1]|]. intros vy c2 I2 X2 A2. apply (rhon_mono _ _ _ _ _ X2) in A1.
  eapply hr_bind; [apply hi_witness, I2|]. intros va c3 I3 X3 A3. apply (rhon_mono _ _ _ _ _ X3) in A1, A2.
  eapply hr_bind; [apply hi_witness, I3|]. intros vb c4 I4 X4 A4. apply (rhon_mono _ _ _ _ _ X4) in A1, A2, A3.
  eapply hr_bind; [apply hr_lift, ha_new, I4|]. intros cv c5 I5 X5 Hc. apply (rhon_mono _ _ _ _ _ X5) in A1, A2, A3, A4.
  eapply hr_bind; [apply hr_lift, ha_new, I5|]. intros rv c6 I6 X6 Hr. apply (rhon_mono _ _ _ _ _ X6) in A1, A2, A3, A4. apply (has_mono F _ _ _ _ X6) in Hc.
  eapply hr_bind; [apply hi_input, I6|]. intros v1 c7 I7 X7 A5. apply (rhon_mono _ _ _ _ _ X7) in A1, A2, A3, A4. apply (has_mono F _ _ _ _ X7) in Hc, Hr.
  eapply hr_bind; [apply hi_input, I7|]. intros v2 c8 I8 X8 A6. apply (rhon_mono _ _ _ _ _ X8) in A1, A2, A3, A4, A5. apply (has_mono F _ _ _ _ X8) in Hc, Hr.
  eapply hr_bind; [apply hi_input, I8|]. intros v3 c9 I9 X9 A7. apply (rhon_mono _ _ _ _ _ X9) in A1, A2, A3, A4, A5, A6. apply (has_mono F _ _ _ _ X9) in Hc, Hr.
  eapply hr_bind; [apply hi_input, I9|]. intros v4 c10 I10 X10 A8. apply (rhon_mono _ _ _ _ _ X10) in A1, A2, A3, A4, A5, A6, A7. apply (has_mono F _ _ _ _ X10) in Hc, Hr.
  apply hr_ret; [exact I10|]. unfold alloc_hon. cbn. auto 12.
Qed.
Lemma rhon_limbs c v x r : rhon c v x r -> slack r = 1%Z -> all c (svar v) (limbs (sim_from F S x)).
Proof.
  intros [H [(L & N & _) R]] Hs. rewrite <- N. replace (limbs (sim_from F S _)) with (limbs (sv v)); [exact H|]. symmetry. cbn [sim_from limbs].
  destruct L as (L1 & O & _). rewrite map_length in L1. apply (rdigits_number F); [exact L1|]. apply Forall_forall. intros z Hz. apply (In_nth _ _ 0) in Hz. destruct Hz as (i & Hi & <-).
  specialize (O i ltac:(lia)). rewrite nth_toZ in O. rewrite R, Hs in O. split; [apply O|]. eapply Z.lt_le_trans; [apply O|].
  rewrite Z.mul_1_l. unfold st. apply Z.pow_le_mono_r; [lia|]. unfold width. destruct (Nat.eqb _ _); cbn; lia.
Qed.
Lemma hi_chunk l xs c : (1 <= length l <= 5)%nat -> Inv c -> all c l xs -> ha (rcompress_chunk F l) c (fun o c' => has c' o (fofZ (rpacked F xs))).
Proof.
  intros HL HI H. unfold rcompress_chunk. pose proof (has_zero F c HI) as Z0.
  assert (G : forall i, has c (nth i l zero_var) (nth i xs 0)).
  { intros i. destruct (Nat.lt_ge_cases i (length l)) as [Hi|Hi].
    - revert i Hi. clear -H. induction H; intros i Hi; [cbn in Hi; lia|]. destruct i; cbn [nth]; [assumption|]. apply IHForall2. cbn in Hi. lia.
    - rewrite !nth_overflow; [exact Z0|rewrite <- (f2len _ _ _ H); exact Hi|exact Hi]. }
  eapply hb; [apply (ha_linear_combine F c); [exact HI|apply G..]|]. intros sum c1 I1 X1 Hs. pose proof (f2len _ _ _ H) as L.
  destruct (Nat.eqb_spec (length l) 5) as [E5|E5].
  - eapply hw; [apply (ha_linear_combine F c1); [exact I1|exact Hs|exact (has_mono F _ _ _ _ X1 (G 4%nat))|exact (has_zero F c1 I1)|exact (has_zero F c1 I1)]|].
    intros o c2 _ _ Ho. replace (fofZ (rpacked F xs)) with
      (1 * (1 * nth 0 xs 0 + rstep F 1 * nth 1 xs 0 + rstep F 2 * nth 2 xs 0 + rstep F 3 * nth 3 xs 0) + rstep F 4 * nth 4 xs 0 + 0 * 0 + 0 * 0); [exact Ho|].
    rewrite rpacked_F. rewrite E5 in L. do 5 (destruct xs as [|? xs]; [discriminate L|]). destruct xs; [|discriminate L]. cbn [fold_right nth]. rewrite (rstep_mul F 3), (rstep_mul F 2), (rstep_mul F 1). ring.
  - apply hr; [exact I1|]. replace (fofZ (rpacked F xs)) with (1 * nth 0 xs 0 + rstep F 1 * nth 1 xs 0 + rstep F 2 * nth 2 xs 0 + rstep F 3 * nth 3 xs 0); [exact Hs|].
    rewrite rpacked_F. rewrite L in *. destruct xs as [|? xs]; [cbn in HL; lia|].
    do 4 (destruct xs as [|? xs]; [cbn [fold_right nth]; rewrite ?(rstep_mul F 2), ?(rstep_mul F 1); ring|]). cbn in HL, E5. lia.
Qed.
Lemma hi_compress l xs c : Inv c -> all c l xs -> ha (rcompress_cs F l) c (fun os c' => all c' os (rcompress F xs)).
Proof.
  intros HI H. unfold rcompress_cs, rcompress, chunks. rewrite <- (f2len _ _ _ H).
  pose proof (chunks_len num_limbs_compressed (length l) ltac:(unfold num_limbs_compressed; lia) l) as HC.
  pose proof (chunks_all F c num_limbs_compressed (length l) l xs H) as HA. revert HC HA.
  generalize (chunks_fuel (length l) num_limbs_compressed l) (chunks_fuel (length l) num_limbs_compressed xs). clear H l xs.
  intros cs ys HC HA. revert c HI HA. revert ys. induction HC as [|ch cs Hch _ IH]; intros ys c HI HA; inversion HA as [|? y ? ys' H1 H2]; subst; cbn [RescueModel.mapM map].
  - apply hr; [exact HI|constructor].
  - eapply hb; [apply (hi_chunk ch y c Hch HI H1)|]. intros o c1 I1 X1 Ho. eapply hb; [apply (IH ys' c1 I1)|].
    { clear -H2 X1. induction H2; constructor; [eapply all_mono; eassumption|assumption]. }
    intros os c2 I2 X2 Hos. apply hr; [exact I2|]. constructor; [exact (has_mono F _ _ _ _ X2 Ho)|exact Hos].
Qed.
Lemma hi_open v x y a b beta lambda resp comm r c : Inv c -> alloc_hon c v x y a b beta lambda resp comm r ->
  state_comm F P [toZ x; toZ y] [toZ a; toZ b] r = Ok comm -> har (insp_open F P e v) c (fun _ _ => True).
Proof.
  intros HI (X & Y & A & B & _ & _ & _ & _ & HC & HR) E. unfold insp_open. unfold state_comm in E. cbn [app flat_map] in E. rewrite app_nil_r in E.
  assert (HL : all c (svar (i_x F v) ++ svar (i_y F v) ++ svar (i_a F v) ++ svar (i_b F v))
    (limbs (sim_from F S (toZ x)) ++ limbs (sim_from F S (toZ y)) ++ limbs (sim_from F S (toZ a)) ++ limbs (sim_from F S (toZ b)))).
  { repeat (apply Forall2_app; [eapply rhon_limbs; [eassumption|reflexivity]|]). eapply rhon_limbs; [eassumption|reflexivity]. }
  eapply hr_bind; [apply hr_lift, (hi_compress _ _ c HI HL)|]. intros cl c1 I1 X1 Hcl. cbn beta in Hcl.
  remember (rcompress F _) as xs eqn:EX. assert (L5 : length xs = 5%nat) by (rewrite EX; unfold rcompress, chunks; rewrite map_length; reflexivity). clear EX.
  do 5 (destruct xs as [|?u xs]; [discriminate L5|]). destruct xs; [|discriminate L5].
  repeat match goal with H : Forall2 _ _ (_ :: _) |- _ => inversion H; clear H; subst | H : Forall2 _ _ [] |- _ => inversion H; clear H; subst end.
  cbn [app resized length] in E. change ((6 - 1 + 2) / 3 * 3 + 1 - 6)%nat with 1%nat in E. cbn [repeat app sponge absorb] in E. apply Ok_inj in E.
  eapply hr_bind; [apply hr_lift, (ha_hash F P HP e He); eassumption|]. intros h1 c2 I2 X2 H1'.
  eapply hr_bind.
  { apply hr_lift, (ha_hash F P HP e He); [exact I2|exact H1'|eapply has_mono; eassumption|exact (has_mono F _ _ _ _ (extends_trans F _ _ _ X1 X2) HR)|exact (has_zero F c2 I2)]. }
  intros h2 c3 I3 X3 H2'. apply hr_lift. eapply hw; [apply (ha_equal F c3 _ _ comm); [exact I3|rewrite <- E; exact H2'|exact (has_mono F _ _ _ _ (extends_trans F _ _ _ (extends_trans F _ _ _ X1 X2) X3) HC)]|]. auto.
Qed.
Lemma hi_equation v x y a b beta lambda resp comm r c : Inv c -> alloc_hon c v x y a b beta lambda resp comm r ->
  two_equations x y a b resp beta lambda -> har (insp_equation F v) c (fun _ _ => True).
Proof.
  intros HI (X & Y & A & B & Bt & L & BL & R & _) HE. unfold insp_equation.
  eapply hr_bind; [eapply (hi_mul _ _ _ _ Strict); [eassumption..|now left]|]. intros m0 c1 I1 X1 M0; cbn beta in M0. apply (rhon_mono _ _ _ _ _ X1) in X, Y, A, B, Bt, L, BL, R.
  eapply hr_bind; [eapply (hi_mul _ _ _ _ Strict); [eassumption..|now left]|]. intros m1 c2 I2 X2 M1; cbn beta in M1. apply (rhon_mono _ _ _ _ _ X2) in A, B, L, R. apply (rmhon_mono _ _ _ _ _ X2) in M0.
  eapply hr_bind; [eapply (hi_mul _ _ _ _ ByOne); [eassumption..|now right]|]. intros m2 c3 I3 X3 M2; cbn beta in M2. apply (rhon_mono _ _ _ _ _ X3) in A, R. apply (rmhon_mono _ _ _ _ _ X3) in M0, M1.
  eapply hr_bind; [eapply hi_add; [eassumption..|cbn; lia|cbn; lia]|]. intros m3 c4 I4 X4 M3; cbn beta in M3. apply (rhon_mono _ _ _ _ _ X4) in A, R. apply (rmhon_mono _ _ _ _ _ X4) in M2.
  eapply hr_bind; [eapply hi_add; [eassumption..|cbn; lia|cbn; lia]|]. intros m4 c5 I5 X5 M4; cbn beta in M4. apply (rhon_mono _ _ _ _ _ X5) in A, R. cbn [additions Z.add Pos.add] in M4.
  destruct (rsta_sub _ _ _ _ (proj2 R) (proj2 A)) as (vr & Er & Rr & Ar).
  eapply hr_bind; [apply (var_sub_ha F S _ _ vr); [exact I5|apply R|apply A|exact Er]|]. intros rhs c6 I6 X6 [Vr Lr].
  assert (Sr : rsta rhs (toZ resp + pad_value S - toZ a) (Others 3)) by (split; rewrite Vr; assumption).
  destruct (rsta_msub _ _ _ _ _ (proj2 M4) Sr ltac:(lia)) as (vd & Ed & Rd & Ad).
  eapply hr_bind; [apply (mulvar_sub_ha F S _ _ vd); [exact I6|eapply all_mono; [exact X6|apply M4]|rewrite Vr; exact Lr|exact Ed]|]. intros d c7 I7 X7 [Vd Ld].
  eapply (var_enforce_zero_ha F Hp' S d); [exact HS|exact I7|rewrite Vd; exact Ld|rewrite Vd; exact Rd|rewrite Vd, Ad; reflexivity|exact (rtotal_zero _ _ _ _ _ _ _ HE)].
Qed.
Lemma hi_number v x c r : Inv c -> rhon c v x r -> slack r = 1%Z -> ha (insp_number F v) c (fun o c' => has c' o (fofZ x)).
Proof.
  intros HI H Hs. pose proof (rhon_limbs c v x r H Hs) as HL. destruct H as [_ [(LL & N & _) R]].
  assert (E : fofZ x = fold_right (fun y acc => y + rstep F 1 * acc) 0 (limbs (sim_from F S x))).
  { rewrite <- number_F. f_equal. rewrite <- N at 1. unfold number. symmetry. f_equal. f_equal.
    cbn [sim_from limbs]. rewrite <- N. fold (st S). destruct LL as (L1 & O & _). rewrite map_length in L1. apply (rdigits_number F); [exact L1|]. apply Forall_forall. intros z Hz. apply (In_nth _ _ 0) in Hz. destruct Hz as (i & Hi & <-).
    specialize (O i ltac:(lia)). rewrite nth_toZ in O. rewrite R, Hs in O. split; [apply O|]. eapply Z.lt_le_trans; [apply O|].
    rewrite Z.mul_1_l. unfold st. apply Z.pow_le_mono_r; [lia|]. unfold width. destruct (Nat.eqb _ _); cbn; lia. }
  rewrite E. revert HL. remember (limbs (sim_from F S x)) as xs eqn:EX. assert (L6 : length xs = 6%nat) by (rewrite EX; reflexivity). clear EX E. intros HL.
  do 6 (destruct xs as [|?u xs]; [discriminate L6|]). destruct xs; [|discriminate L6]. unfold insp_number. revert HL. generalize (svar v). intros l HL.
  repeat match goal with H : Forall2 _ _ (_ :: _) |- _ => inversion H; clear H; subst | H : Forall2 _ _ [] |- _ => inversion H; clear H; subst end.
  cbn [nth]. eapply hb; [apply (ha_linear_combine F c); eassumption|]. intros o c1 I1 X1 Ho.
  eapply hw; [apply (ha_linear_combine F c1); [exact I1|exact Ho|eapply has_mono; eassumption|eapply has_mono; eassumption|exact (has_zero F c1 I1)]|].
  intros o2 c2 _ _ Ho2. cbn beta in Ho2 |- *. match goal with H : has c2 o2 ?u |- has c2 o2 ?w => replace w with u; [exact H|] end.
  cbn [fold_right]. rewrite (rstep_mul F 4), (rstep_mul F 3), (rstep_mul F 2), (rstep_mul F 1). ring.
Qed.
Lemma hi_match v am ty x y a b beta lambda resp comm r c : Inv c -> alloc_hon c v x y a b beta lambda resp comm r ->
  has c am (fofZ (toZ x)) -> has c ty (fofZ (toZ y)) -> ha (insp_match F v am ty) c (fun _ _ => True).
Proof.
  intros HI (X & Y & _) Ha Ht. unfold insp_match. eapply hb; [apply (hi_number _ _ c Strict HI X eq_refl)|]. intros xo c1 I1 X1 Hx.
  eapply hb; [apply (hi_number _ (toZ y) c1 Strict I1); [now apply (rhon_mono _ _ _ _ _ X1)|reflexivity]|]. intros yo c2 I2 X2 Hy.
  eapply hb; [eapply (ha_equal F c2); [exact I2|exact (has_mono F _ _ _ _ X2 Hx)|exact (has_mono F _ _ _ _ (extends_trans F _ _ _ X1 X2) Ha)]|]. intros _ c3 I3 X3 _.
  eapply hw; [eapply (ha_equal F c3); [exact I3|exact (has_mono F _ _ _ _ X3 Hy)|exact (has_mono F _ _ _ _ (extends_trans F _ _ _ (extends_trans F _ _ _ X1 X2) X3) Ht)]|]. auto.
Qed.
(** An honest witness for amount [am] and type [ty]. *)
Definition insp_honest (w : insp_witness F K) (am ty : F) : Prop :=
  exists x a y b rest s, iw_data w = (x, a) :: (y, b) :: rest /\ two_responses K (iw_resp w) (iw_lambda w) = Ok s /\
  two_equations x y a b s (iw_beta w) (iw_lambda w) /\ (toZ x < 2 ^ 64)%Z /\ (toZ y < 2 ^ 240)%Z /\
  state_comm F P [toZ x; toZ y] [toZ a; toZ b] (iw_r w) = Ok (iw_comm w) /\ am = fofZ (toZ x) /\ ty = fofZ (toZ y).
Lemma hi_body w am ty (A T : F) vs c : Inv c -> insp_honest w A T -> has c am A -> has c ty T ->
  insp_inputs F K (iw_comm w) (iw_resp w) (iw_beta w) (iw_lambda w) = Ok vs ->
  har (insp_body F K P e w am ty) c (fun l c' => all c' l vs).
Proof.
  intros HI (x & a & y & b & rest & s & E1 & E2 & HE & Hx & Hy & HC & -> & ->) Ha Ht EV. unfold insp_body. rewrite E1, E2.
  unfold insp_inputs in EV. rewrite E2 in EV. cbn [rmap bind] in EV. apply Ok_inj in EV. subst vs.
  eapply hr_bind; [apply hi_alloc; assumption|]. intros v c1 I1 X1 Hv; cbn beta in Hv. eapply hr_bind; [eapply hi_open; eassumption|]. intros u1 c2 I2 X2 _. apply (alloc_mono _ _ _ _ _ _ _ _ _ _ _ _ X2) in Hv.
  eapply hr_bind; [eapply hi_equation; eassumption|]. intros u2 c3 I3 X3 _. apply (alloc_mono _ _ _ _ _ _ _ _ _ _ _ _ X3) in Hv.
  pose proof (extends_trans F _ _ _ (extends_trans F _ _ _ X1 X2) X3) as X13.
  eapply hr_bind; [apply hr_lift; eapply hi_match; [exact I3|exact Hv|exact (has_mono F _ _ _ _ X13 Ha)|exact (has_mono F _ _ _ _ X13 Ht)]|]. intros u3 c4 I4 X4 _.
  apply (alloc_mono _ _ _ _ _ _ _ _ _ _ _ _ X4) in Hv. destruct Hv as (_ & _ & _ & _ & H5 & H6 & H7 & H8 & H9 & _). apply hr_ret; [exact I4|]. constructor; [exact H9|].
  repeat (apply Forall2_app; [eapply rhon_limbs; [eassumption|reflexivity]|]). eapply rhon_limbs; [eassumption|reflexivity].
Qed.
Lemma honest_builds w A T : insp_honest w A T -> insp_builds w.
Proof. intros (x & a & y & b & rest & s & E1 & E2 & HE & _). exists x, a, y, b, rest, s. auto. Qed.
End Honest.
