(** Proof rules for composing gadgets: soundness in continuation form, honest
    runs from a given state, and the existence of adversarial assignments. *)
From Coq Require Import List ZArith Bool Lia ZifyBool ZifyNat Field.
From Verif Require Import Base Field PField TurboModel TurboSpec TurboProofs TurboHonest.
Import ListNotations.
Ltac Zify.zify_post_hook ::= Z.div_mod_to_equations.
Local Open Scope F_scope.

Section Kit.
Context (F : PField).
Add Field Fkit : (f_th F).
Implicit Types (c : tcs F) (w : nat -> F).
Notation has := (has F).

(** ** Soundness, continuation form *)
Lemma sb {A B} (m : CS F A) (f : A -> CS F B) R (Q : (nat -> F) -> B -> Prop) :
  sound m R -> (forall a, sound (f a) (fun w b => R w a -> Q w b)) -> sound (bnd m f) Q.
Proof.
  intros Hm Hf c w H. rewrite bnd_eq in *. apply Hf in H. destruct H as [H1 H2].
  apply Hm in H1. destruct H1 as [H1 H3]. auto.
Qed.
Lemma sr {A} (a : A) (Q : (nat -> F) -> A -> Prop) : (forall w, Q w a) -> sound (ret a) Q.
Proof. intros HQ c w H. split; [exact H|apply HQ]. Qed.
Lemma sw {A} (m : CS F A) (R : (nat -> F) -> A -> Prop) (Q : (nat -> F) -> A -> Prop) :
  sound m R -> (forall w a, R w a -> Q w a) -> sound m Q.
Proof. intros H HR c w Hs. apply H in Hs. destruct Hs. split; auto. Qed.

(** ** Honest runs *)
Definition ha {A} (m : CS F A) (c : tcs F) (Q : A -> tcs F -> Prop) : Prop :=
  Inv (snd (m c)) /\ extends c (snd (m c)) /\ Q (fst (m c)) (snd (m c)).

Lemma ha_honest {A} (m : CS F A) P Q : honest m P Q -> forall c, Inv c -> P c -> ha m c Q.
Proof. intros H c HI HP. exact (H c HI HP). Qed.
Lemma honest_ha {A} (m : CS F A) (P : tcs F -> Prop) Q :
  (forall c, Inv c -> P c -> ha m c Q) -> honest m P Q.
Proof. intros H c HI HP. exact (H c HI HP). Qed.
Lemma hb {A B} (m : CS F A) (f : A -> CS F B) c Q1 Q :
  ha m c Q1 -> (forall a c', Inv c' -> extends c c' -> Q1 a c' -> ha (f a) c' Q) -> ha (bnd m f) c Q.
Proof.
  intros [H1 [H2 H3]] Hf. unfold ha. rewrite bnd_eq. destruct (Hf _ _ H1 H2 H3) as [H4 [H5 H6]].
  split; [exact H4|]. split; [|exact H6]. eapply extends_trans; eassumption.
Qed.
Lemma hr {A} (a : A) c (Q : A -> tcs F -> Prop) : Inv c -> Q a c -> ha (ret a) c Q.
Proof. intros HI HQ. split; [exact HI|]. split; [apply extends_refl|exact HQ]. Qed.
Lemma hw {A} (m : CS F A) c (Q Q' : A -> tcs F -> Prop) :
  ha m c Q -> (forall a c', Inv c' -> extends c c' -> Q a c' -> Q' a c') -> ha m c Q'.
Proof. intros [H1 [H2 H3]] H. split; [exact H1|]. split; [exact H2|]. auto. Qed.

Lemma has_mono c c' i x : extends c c' -> has c i x -> has c' i x.
Proof. intros H. now apply has_stable. Qed.
Lemma has2_mono c c' l vs : extends c c' -> Forall2 (has c) l vs -> Forall2 (has c') l vs.
Proof. intros H. now apply stable_forall2. Qed.

Lemma ha_of {A} (m : CS F A) c S Q : honest m S (fun o c' => Q o c' /\ S c') -> Inv c -> S c -> ha m c Q.
Proof. intros H HI HS. destruct (H c HI HS) as [H1 [H2 [H3 _]]]. split; [exact H1|]. split; assumption. Qed.

Ltac stab := repeat first [apply has_stable | apply stable_forall2 | apply stable_prop | apply stable_and].
Lemma ha_add c l r x y : Inv c -> has c l x -> has c r y -> ha (add F l r) c (fun o c' => has c' o (x + y)).
Proof.
  intros HI H1 H2. apply (ha_of _ _ (fun c => has c l x /\ has c r y)); [|exact HI|auto].
  apply h_add; [stab|]. auto.
Qed.
Lemma ha_sub c l r x y : Inv c -> has c l x -> has c r y -> ha (sub F l r) c (fun o c' => has c' o (x - y)).
Proof.
  intros HI H1 H2. apply (ha_of _ _ (fun c => has c l x /\ has c r y)); [|exact HI|auto].
  apply h_sub; [stab|]. auto.
Qed.
Lemma ha_mul c l r x y : Inv c -> has c l x -> has c r y -> ha (mul F l r) c (fun o c' => has c' o (x * y)).
Proof.
  intros HI H1 H2. apply (ha_of _ _ (fun c => has c l x /\ has c r y)); [|exact HI|auto].
  apply h_mul; [stab|]. auto.
Qed.
Lemma ha_new c x : Inv c -> ha (new_variable F x) c (fun o c' => has c' o x).
Proof. intros HI. apply (ha_of _ _ (fun _ => True)); [|exact HI|exact I]. apply h_new, stable_True. Qed.
Lemma ha_news c vs : Inv c -> ha (new_variables F vs) c (fun o c' => Forall2 (has c') o vs).
Proof. intros HI. apply (ha_of _ _ (fun _ => True)); [|exact HI|exact I]. apply h_new_variables, stable_True. Qed.
Lemma news_index vs : forall c, fst (new_variables F vs c) = seq (nvars c) (length vs).
Proof.
  induction vs as [|v vs IH]; intros c; [reflexivity|]. cbn [new_variables length seq].
  rewrite bnd_eq. cbn [new_variable fst snd]. rewrite bnd_eq. cbn [ret fst]. rewrite IH. reflexivity.
Qed.
Lemma ha_is_equal_or_not c l r x y : Inv c -> has c l x -> has c r y ->
  ha (is_equal_or_not_equal F l r) c
    (fun p c' => has c' (fst p) (if f_dec x y then 1 else 0) /\ has c' (snd p) (if f_dec x y then 0 else 1)).
Proof.
  intros HI H1 H2.
  assert (HS : stable F (fun c => has c l x /\ has c r y)) by (stab).
  eapply hw; [apply (ha_honest _ _ _ (h_is_equal_or_not F _ l r x y HS (fun c _ H => H))); auto|].
  intros a c' _ _ H. split; apply H.
Qed.
Lemma ha_linear_combine c a b (d e : nat) k1 k2 k3 k4 xa xb xd xe :
  Inv c -> has c a xa -> has c b xb -> has c d xd -> has c e xe ->
  ha (linear_combine F a b d e k1 k2 k3 k4) c (fun o c' => has c' o (k1 * xa + k2 * xb + k3 * xd + k4 * xe)).
Proof.
  intros HI H1 H2 H3 H4.
  apply (ha_of _ _ (fun c => has c a xa /\ has c b xb /\ has c d xd /\ has c e xe)); [|exact HI|auto].
  apply h_linear_combine; [stab|]. auto.
Qed.
Lemma ha_select c v0 v1 b x0 x1 xb : Inv c -> boolean xb -> has c v0 x0 -> has c v1 x1 -> has c b xb ->
  ha (select F v0 v1 b) c (fun o c' => has c' o (if f_dec xb 0 then x0 else x1)).
Proof.
  intros HI B H1 H2 H3.
  apply (ha_of _ _ (fun c => has c v0 x0 /\ has c v1 x1 /\ has c b xb)); [|exact HI|auto].
  apply h_select; [stab|exact B|]. auto.
Qed.
Lemma ha_range_check c v n x : Inv c -> (2 <= n)%nat -> has c v x -> (toZ x < 2 ^ Z.of_nat n)%Z ->
  ha (range_check F v n) c (fun b c' => Forall2 (has c') b (map (bit F (toZ x)) (seq 0 n))).
Proof.
  intros HI Hn H1 H2. apply (ha_of _ _ (fun c => has c v x)); [|exact HI|auto].
  apply h_range_check; [apply has_stable|exact Hn|auto|exact H2].
Qed.

(** Gates. *)
Lemma ha_push c g : Inv c -> wire_lt (nvars c) g -> gate_eq (val c) g -> gate_bool (val c) g ->
  ha (push_gate F g) c (fun _ _ => True).
Proof.
  intros [H1 [H2 [H3 [H4 H5]]]] W E B. unfold ha, push_gate. cbn [fst snd].
  split; [|split; [|exact I]].
  - split; [exact H1|]. split; [exact H2|]. split; [exact H3|]. split.
    + constructor; assumption.
    + constructor; [split; [exact E|exact B]|exact H5].
  - split; [cbn; lia|reflexivity].
Qed.
Lemma ha_mul_gate c l r o x y z : Inv c -> has c l x -> has c r y -> has c o z -> z = x * y ->
  ha (insert_mul_gate F l r o) c (fun _ _ => True).
Proof.
  intros HI [L1 H1] [L2 H2] [L3 H3] E. pose proof (has_zero F c HI) as [Z1 Z2].
  apply ha_push; [exact HI|split; [cbn; unfold zero_var; lia|exact I]| |now apply nobool].
  apply mul_row_eq. now rewrite H1, H2, H3.
Qed.
Lemma ha_const_gate c v k : Inv c -> has c v k -> ha (insert_constant_gate F v k) c (fun _ _ => True).
Proof.
  intros HI [L1 H1]. apply ha_push; [exact HI|split; [cbn; unfold zero_var; lia|exact I]| |now apply nobool].
  now apply const_row_eq.
Qed.
Lemma ha_pub c v x : Inv c -> has c v x -> ha (prepare_pi_variable F v) c (fun _ _ => True).
Proof.
  intros HI [L1 H1]. apply ha_push; [exact HI|split; [cbn; lia|exact L1]| |now apply nobool].
  apply pub_row_eq.
Qed.
Lemma ha_equal c l r x : Inv c -> has c l x -> has c r x -> ha (equal F l r) c (fun _ _ => True).
Proof.
  intros HI [L1 H1] [L2 H2]. pose proof (has_zero F c HI) as [Z1 Z2].
  apply ha_push; [exact HI|split; [cbn; unfold zero_var; lia|exact I]| |now apply nobool].
  apply lc_row_eq. unfold zero_var. rewrite H1, H2, Z2. ring.
Qed.
Lemma ha_boolean_gate c v x : Inv c -> has c v x -> boolean x -> ha (insert_boolean_gate F v) c (fun _ _ => True).
Proof.
  intros HI H B. apply (ha_mul_gate c v v v x x x); try assumption. destruct B as [->| ->]; ring.
Qed.

(** ** Adversarial assignments *)
Definition wf c : Prop := Forall (wire_lt (nvars c)) (grev c).
Definition agree (n : nat) w w' : Prop := forall i, (i < n)%nat -> w' i = w i.
(** From the assignment [w] of [c] the adversary can continue through [m]. *)
Definition adv {A} (m : CS F A) c w (Q : A -> tcs F -> (nat -> F) -> Prop) : Prop :=
  exists w', agree (nvars c) w w' /\ (nvars c <= nvars (snd (m c)))%nat /\
    wf (snd (m c)) /\ sat (snd (m c)) w' /\ Q (fst (m c)) (snd (m c)) w'.

Lemma ab {A B} (m : CS F A) (f : A -> CS F B) c w Q1 Q :
  adv m c w Q1 ->
  (forall a c' w', agree (nvars c) w w' -> (nvars c <= nvars c')%nat -> wf c' -> sat c' w' ->
     Q1 a c' w' -> adv (f a) c' w' Q) -> adv (bnd m f) c w Q.
Proof.
  intros [w' [H1 [H2 [H3 [H4 H5]]]]] Hf. unfold adv. rewrite bnd_eq.
  destruct (Hf _ _ _ H1 H2 H3 H4 H5) as [w'' [K1 [K2 [K3 [K4 K5]]]]].
  exists w''. split; [|split; [lia|]]; [|auto]. intros i Hi. rewrite K1 by lia. now apply H1.
Qed.
Lemma ar {A} (a : A) c w (Q : A -> tcs F -> (nat -> F) -> Prop) : wf c -> sat c w -> Q a c w -> adv (ret a) c w Q.
Proof. intros H1 H2 H3. exists w. split; [intros i _; reflexivity|]. cbn. auto. Qed.
Lemma aw {A} (m : CS F A) c w (Q Q' : A -> tcs F -> (nat -> F) -> Prop) :
  adv m c w Q -> (forall a c' w', agree (nvars c) w w' -> (nvars c <= nvars c')%nat -> Q a c' w' -> Q' a c' w') -> adv m c w Q'.
Proof. intros [w' [H1 [H2 [H3 [H4 H5]]]]] H. exists w'. auto 6. Qed.

(** A known value under the adversary's assignment. *)
Definition hasw c w (i : nat) (x : F) : Prop := (i < nvars c)%nat /\ w i = x.
Lemma hasw_mono c c' w w' i x : agree (nvars c) w w' -> (nvars c <= nvars c')%nat -> hasw c w i x -> hasw c' w' i x.
Proof. intros H1 H2 [H3 H4]. split; [lia|]. now rewrite H1. Qed.

Definition upd w (n : nat) (x : F) : nat -> F := fun i => if Nat.eqb i n then x else w i.
Lemma upd_agree w n x : agree n w (upd w n x).
Proof. intros i Hi. unfold upd. destruct (Nat.eqb_spec i n); [lia|reflexivity]. Qed.
Lemma upd_same w n x : upd w n x n = x.
Proof. unfold upd. now rewrite Nat.eqb_refl. Qed.

(** A new variable may be given any value, whatever the code computed. *)
Lemma adv_new (v : F) c w x : wf c -> sat c w ->
  adv (new_variable F v) c w (fun o c' w' => hasw c' w' o x).
Proof.
  intros HW HS. exists (upd w (nvars c) x). unfold new_variable. cbn [fst snd nvars grev].
  split; [apply upd_agree|]. split; [lia|]. split; [|split].
  - unfold wf in *. cbn [nvars grev]. eapply Forall_impl; [|exact HW]. intros g. apply wire_lt_mono. lia.
  - unfold sat in *. cbn [grev]. eapply (sat_ext F c w); [exact HW| |exact HS].
    intros i Hi. symmetry. now apply upd_agree.
  - split; [cbn; lia|apply upd_same].
Qed.
Lemma adv_push g c w : wf c -> sat c w -> wire_lt (nvars c) g -> gate_eq w g -> gate_bool w g ->
  adv (push_gate F g) c w (fun _ c' w' => True).
Proof.
  intros HW HS H1 H2 H3. exists w. unfold push_gate. cbn [fst snd nvars grev].
  split; [intros i _; reflexivity|]. split; [lia|]. split; [constructor; assumption|].
  split; [constructor; [split|]; assumption|exact I].
Qed.
Lemma adv_state {A} (v : tcs F -> F) (f : nat -> CS F A) c w Q :
  adv (bnd (new_variable F (v c)) f) c w Q -> adv (fun s => bnd (new_variable F (v s)) f s) c w Q.
Proof. exact (fun H => H). Qed.
Lemma adv_out (v : tcs F -> F) (g : nat -> gate F) c w x :
  wf c -> sat c w ->
  (forall c' w' o, agree (nvars c) w w' -> (nvars c < nvars c')%nat -> hasw c' w' o x ->
     wire_lt (nvars c') (g o) /\ gate_eq w' (g o) /\ gate_bool w' (g o)) ->
  adv (fun s => bnd (new_variable F (v s)) (fun o => bnd (push_gate F (g o)) (fun _ => ret o)) s) c w
    (fun o c' w' => hasw c' w' o x).
Proof.
  intros HW HS Hg.
  exists (upd w (nvars c) x). unfold bnd, new_variable, push_gate, ret. cbn [fst snd nvars grev].
  set (c1 := mkCs (grev c) (S (nvars c)) (wit c ++ [v c])).
  destruct (Hg c1 (upd w (nvars c) x) (nvars c)) as [G1 [G2 G3]].
  { apply upd_agree. } { cbn. lia. } { split; [cbn; lia|apply upd_same]. }
  split; [apply upd_agree|]. split; [lia|]. split; [|split].
  - unfold wf in *. cbn [nvars grev]. constructor; [exact G1|].
    eapply Forall_impl; [|exact HW]. intros g'. apply wire_lt_mono. lia.
  - constructor; [auto|]. eapply (sat_ext F c w); [exact HW| |exact HS].
    intros i Hi. symmetry. now apply upd_agree.
  - split; [cbn; lia|apply upd_same].
Qed.

Section W0.
(** The remaining rules are for assignments in which variable 0 is zero. *)
Lemma adv_add c w l r x y : wf c -> sat c w -> hasw c w 0 0 -> hasw c w l x -> hasw c w r y ->
  adv (add F l r) c w (fun o c' w' => hasw c' w' o (x + y)).
Proof.
  intros HW HS [_ H0] [L1 H1] [L2 H2].
  apply (adv_out (fun s => _) (fun o => lc_row F l r 0 0 o 1 1 0 0)); try assumption.
  intros c' w' o Ha Hn [Ho1 Ho2]. split; [split; [cbn; lia|exact I]|]. split; [|now apply nobool].
  apply lc_row_eq. rewrite Ho2, !Ha, H1, H2, H0 by lia. ring.
Qed.
Lemma adv_sub c w l r x y : wf c -> sat c w -> hasw c w 0 0 -> hasw c w l x -> hasw c w r y ->
  adv (sub F l r) c w (fun o c' w' => hasw c' w' o (x - y)).
Proof.
  intros HW HS [_ H0] [L1 H1] [L2 H2].
  apply (adv_out (fun s => _) (fun o => lc_row F l r 0 0 o 1 (- (1)) 0 0)); try assumption.
  intros c' w' o Ha Hn [Ho1 Ho2]. split; [split; [cbn; lia|exact I]|]. split; [|now apply nobool].
  apply lc_row_eq. rewrite Ho2, !Ha, H1, H2, H0 by lia. ring.
Qed.
Lemma adv_mul c w l r x y : wf c -> sat c w -> hasw c w 0 0 -> hasw c w l x -> hasw c w r y ->
  adv (mul F l r) c w (fun o c' w' => hasw c' w' o (x * y)).
Proof.
  intros HW HS [_ H0] [L1 H1] [L2 H2].
  apply (adv_out (fun s => _) (fun o => mul_row F l r o)); try assumption.
  intros c' w' o Ha Hn [Ho1 Ho2]. split; [split; [cbn; lia|exact I]|]. split; [|now apply nobool].
  apply mul_row_eq. rewrite Ho2, !Ha, H1, H2 by lia. ring.
Qed.
Lemma adv_mul_gate c w l r o x y z : wf c -> sat c w -> (0 < nvars c)%nat ->
  hasw c w l x -> hasw c w r y -> hasw c w o z -> z = x * y ->
  adv (insert_mul_gate F l r o) c w (fun _ _ _ => True).
Proof.
  intros HW HS H0 [L1 H1] [L2 H2] [L3 H3] E.
  apply adv_push; try assumption; [split; [cbn; lia|exact I]| |now apply nobool].
  apply mul_row_eq. now rewrite H1, H2, H3.
Qed.
Lemma adv_const_gate c w v k : wf c -> sat c w -> hasw c w v k ->
  adv (insert_constant_gate F v k) c w (fun _ _ _ => True).
Proof.
  intros HW HS [L1 H1]. apply adv_push; try assumption; [split; [cbn; lia|exact I]| |now apply nobool].
  now apply const_row_eq.
Qed.
(** With variable 1 set to zero the equality test can be made to answer "neither
    equal nor different" for any operands. *)
Lemma adv_neither c w l r x y : wf c -> sat c w -> hasw c w 0 0 -> hasw c w 1 0 ->
  hasw c w l x -> hasw c w r y ->
  adv (is_equal_or_not_equal F l r) c w (fun p c' w' => hasw c' w' (fst p) 0 /\ hasw c' w' (snd p) 0).
Proof.
  intros HW HS H0 H1 Hl Hr. unfold is_equal_or_not_equal.
  eapply ab; [apply (adv_sub c w l r x y); assumption|]. intros d c1 w1 A1 N1 W1 S1 Hd.
  pose proof (hasw_mono _ _ _ _ _ _ A1 N1 H0) as Z1. pose proof (hasw_mono _ _ _ _ _ _ A1 N1 H1) as O1.
  apply (ab _ _ _ _ (fun _ c' w' => c' = c1 /\ w' = w1)).
  { exists w1. unfold peek. cbn. repeat split; try assumption; lia. }
  intros dv c2 w2 _ _ _ _ [-> ->].
  eapply ab; [apply (adv_new _ c1 w1 0); assumption|]. intros inv c3 w3 A3 N3 W3 S3 Hi.
  pose proof (hasw_mono _ _ _ _ _ _ A3 N3 Z1) as Z3. pose proof (hasw_mono _ _ _ _ _ _ A3 N3 O1) as O3.
  pose proof (hasw_mono _ _ _ _ _ _ A3 N3 Hd) as D3.
  eapply ab; [apply (adv_mul c3 w3 d inv (x - y) 0); assumption|]. intros m c4 w4 A4 N4 W4 S4 Hm.
  pose proof (hasw_mono _ _ _ _ _ _ A4 N4 Z3) as Z4. pose proof (hasw_mono _ _ _ _ _ _ A4 N4 O3) as O4.
  pose proof (hasw_mono _ _ _ _ _ _ A4 N4 D3) as D4.
  eapply ab; [apply (adv_sub c4 w4 one_var m 0 ((x - y) * 0)); assumption|]. intros e c5 w5 A5 N5 W5 S5 He.
  pose proof (hasw_mono _ _ _ _ _ _ A5 N5 Z4) as Z5. pose proof (hasw_mono _ _ _ _ _ _ A5 N5 Hm) as M5.
  pose proof (hasw_mono _ _ _ _ _ _ A5 N5 D4) as D5.
  eapply ab; [apply (adv_mul_gate c5 w5 d e zero_var (x - y) (0 - (x - y) * 0) 0); try assumption; [apply Z5|ring]|].
  intros u c6 w6 A6 N6 W6 S6 _. apply ar; try assumption. cbn [fst snd].
  split.
  - replace (0 : F) with (0 - (x - y) * 0 : F) by ring. eapply hasw_mono; eassumption.
  - replace (0 : F) with ((x - y) * 0 : F) by ring. eapply hasw_mono; eassumption.
Qed.
End W0.
End Kit.
