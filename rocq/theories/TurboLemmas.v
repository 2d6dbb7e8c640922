(** Statements about whole constraint systems: existence of witnesses, padding,
    witness verification, and what goes wrong when variables 0 and 1 are not
    pinned. *)
From Coq Require Import List ZArith Bool Lia ZifyBool ZifyNat Field.
From Verif Require Import Base Field PField TurboModel TurboSpec TurboProofs TurboHonest.
Import ListNotations.
Ltac Zify.zify_post_hook ::= Z.div_mod_to_equations.
Local Open Scope F_scope.

Section Lemmas.
Context (F : PField).
Add Field Ftl : (f_th F).
Implicit Types (c : tcs F) (w : nat -> F).

Lemma honest_sat {A} (m : CS F A) P Q c : honest m P Q -> Inv c -> P c ->
  let r := m c in sat (snd r) (val (snd r)) /\ conv (val (snd r)) /\ extends c (snd r) /\ Q (fst r) (snd r).
Proof.
  intros H HI HP. destruct (H c HI HP) as [[_ [_ [H1 [_ H2]]]] [H3 H4]]. auto.
Qed.

Lemma sat_exists_range c v n x : Inv c -> (2 <= n)%nat -> has F c v x ->
  ((exists w, sat (snd (range_check F v n c)) w /\ w v = x) <-> (toZ x < 2 ^ Z.of_nat n)%Z).
Proof.
  intros HI Hn Hx. split.
  - intros [w [Hs Hw]].
    destruct (Z_lt_le_dec (toZ x) (2 ^ Z.of_nat n)) as [|Hge]; [assumption|exfalso].
    pose proof (toZ_range F x) as Hr.
    destruct (range_check_sound F v n Hn ltac:(lia) c w Hs) as [_ [_ [Hlt _]]]. rewrite Hw in Hlt. lia.
  - intros Hlt.
    destruct (honest_sat _ _ _ c (h_range_check F (fun c => has F c v x) v n x (has_stable F v x) Hn
       (fun c _ H => H) Hlt) HI Hx) as [H1 [_ [_ [_ H2]]]].
    exists (val (snd (range_check F v n c))). split; [exact H1|apply H2].
Qed.

(** ** Padding *)
Lemma pad_sat c w : sat (pad F c) w <-> sat c w.
Proof.
  unfold sat, pad. cbn [grev]. rewrite Forall_app. split; [intros [_ H]; exact H|].
  intros H. split; [|exact H]. apply Forall_forall. intros g Hg. apply repeat_spec in Hg. subst g.
  apply pad_row_eq.
Qed.
Lemma pad_size c : size (pad F c) = next_power_of_two (size c).
Proof.
  unfold size, pad, next_power_of_two. cbn [grev]. rewrite app_length, repeat_length. unfold size.
  assert (length (grev c) <= 2 ^ Nat.log2_up (length (grev c)))%nat; [|lia].
  destruct (Nat.eq_dec (length (grev c)) 0) as [e|n]; [rewrite e; cbn; lia|].
  apply Nat.log2_log2_up_spec. lia.
Qed.
Lemma next_power_least n : exists k, next_power_of_two n = (2 ^ k)%nat /\ (n <= 2 ^ k)%nat /\
  forall j, (n <= 2 ^ j)%nat -> (2 ^ k <= 2 ^ j)%nat.
Proof.
  unfold next_power_of_two. exists (Nat.log2_up n). split; [reflexivity|].
  destruct (Nat.eq_dec n 0) as [->|Hn]; [cbn; split; [lia|]; intros j _; apply (Nat.pow_le_mono_r 2 0 j); lia|].
  split; [apply Nat.log2_log2_up_spec; lia|]. intros j Hj. apply Nat.pow_le_mono_r; [lia|].
  apply Nat.log2_up_le_pow2; lia.
Qed.

(** ** Gate evaluation *)
Lemma eval_gate_linear (g : gate F) (a b c d o pi : F) :
  eval_gate F g a b c d o pi
  = fold_right (fun p acc => fst p * snd p + acc) 0
      (combine (selectors_of F g) (selector_multipliers F a b c d o)) + pi.
Proof. unfold eval_gate, selectors_of, selector_multipliers. cbn [combine fold_right fst snd]. ring. Qed.

Lemma eval_gate_eq w (g : gate F) : 
  eval_gate F g (w (w1 g)) (w (w2 g)) (w (w3 g)) (w (w4 g)) (w (wo g))
    (match g_pub g with Some v => w v | None => 0 end) = 0 <-> gate_eq w g.
Proof.
  unfold eval_gate, gate_eq. generalize (match g_pub g with Some v => w v | None => 0 end). intros pi.
  rewrite fsub_0. reflexivity.
Qed.

(** The values the public variables must have, in gate order. *)
Definition pub_vars (gs : list (gate F)) : list nat :=
  flat_map (fun g => match g_pub g with Some v => [v] | None => [] end) gs.

Lemma check_gates_iff (w : list F) : forall gs online, length online = length (pub_vars gs) ->
  (check_gates F w gs online = Ok tt <->
   online = map (fun v => nth v w 0) (pub_vars gs) /\ Forall (gate_eq (fun i => nth i w 0)) gs).
Proof.
  induction gs as [|g gs IH]; intros online Hlen.
  - cbn in *. destruct online; [|discriminate]. split; [split; [reflexivity|constructor]|reflexivity].
  - cbn [check_gates pub_vars flat_map] in *. fold (pub_vars gs) in *.
    pose proof (eval_gate_eq (fun i => nth i w 0) g) as Eg.
    destruct (g_pub g) as [v|]; cbn [app map length] in *.
    + destruct online as [|pi online]; [discriminate|]. cbn [length] in Hlen.
      destruct (f_dec (nth v w 0) pi) as [e|n].
      * subst pi. destruct (f_dec _ 0) as [e|n].
        -- rewrite IH by lia. apply Eg in e. split.
           ++ intros [-> H]. split; [reflexivity|now constructor].
           ++ intros [H1 H2]. injection H1 as H1. inversion H2; subst. auto.
        -- split; [discriminate|]. intros [_ H]. inversion H; subst. exfalso. apply n. now apply Eg.
      * split; [discriminate|]. intros [H _]. injection H as H _. exfalso. now apply n.
    + destruct (f_dec _ 0) as [e|n].
      * rewrite IH by exact Hlen. apply Eg in e. split.
        -- intros [-> H]. split; [reflexivity|now constructor].
        -- intros [H1 H2]. inversion H2; subst. auto.
      * split; [discriminate|]. intros [_ H]. inversion H; subst. exfalso. apply n. now apply Eg.
Qed.

Lemma filter_pub_length gs : length (filter (is_pub F) gs) = length (pub_vars gs).
Proof.
  induction gs as [|g gs IH]; [reflexivity|]. cbn [filter pub_vars flat_map]. fold (pub_vars gs).
  unfold is_pub at 1. destruct (g_pub g); cbn; congruence.
Qed.

Lemma pub_row_eq v (w : nat -> F) : gate_eq w (const_row F v 0 (Some v)).
Proof. unfold gate_eq, const_row. cbn. ring. Qed.
Lemma verify_witness_iff c (w online : list F) :
  verify_witness F c w online = Ok tt <->
  length w = nvars c /\ online = map (fun v => nth v w 0) (pub_vars (gates c)) /\
  Forall (gate_eq (fun i => nth i w 0)) (gates c).
Proof.
  unfold verify_witness. rewrite filter_pub_length.
  destruct (Nat.eqb_spec (length w) (nvars c)) as [e|n]; cbn [negb].
  2:{ split; [discriminate|]. intros [H _]. contradiction. }
  destruct (Nat.eqb_spec (length online) (length (pub_vars (gates c)))) as [e'|n']; cbn [negb].
  2:{ split; [discriminate|]. intros [_ [-> _]]. exfalso. apply n'. now rewrite map_length. }
  rewrite check_gates_iff by exact e'. intuition.
Qed.

(** ** Variables 0 and 1 are not pinned *)

(** Two free inputs and one [equal] constraint between them. *)
Definition equal_system (x y : F) : tcs F :=
  snd (bnd (new_variable F x) (fun l => bnd (new_variable F y) (fun r => equal F l r)) (cs_new F)).
Lemma equal_system_any (x y : F) : exists w,
  sat (equal_system x y) w /\ w 2%nat = x /\ w 3%nat = y.
Proof.
  exists (fun i : nat => match i with O => x - y | S O => 1 | S (S O) => x | _ => y end).
  split; [|split; reflexivity]. constructor; [|constructor].
  split; [apply lc_row_eq; cbn; ring|intros H; discriminate].
Qed.

(** Two equal inputs whose [is_equal] output is zero. *)
Definition is_equal_system (x y : F) : nat * tcs F :=
  bnd (new_variable F x) (fun l => bnd (new_variable F y) (fun r => is_equal F l r)) (cs_new F).
Lemma is_equal_system_zero (x : F) : exists w,
  sat (snd (is_equal_system x x)) w /\ w 0%nat = 0 /\ w 2%nat = x /\ w 3%nat = x /\
  w (fst (is_equal_system x x)) = 0.
Proof.
  exists (fun i : nat => match i with S (S O) => x | S (S (S O)) => x | _ => 0 end).
  split; [|repeat split].
  assert (N : forall w g, g_bool g = false -> gate_bool (F := F) w g) by (intros w g H H'; congruence).
  unfold sat.
  assert (E : grev (snd (is_equal_system x x)) =
    [mul_row F 4 7 0; lc_row F 1 6 0 0 7 1 (- (1)) 0 0; mul_row F 4 5 6; lc_row F 2 3 0 0 4 1 (- (1)) 0 0]) by reflexivity.
  rewrite E. clear E.
  apply Forall_cons; [split; [apply mul_row_eq; ring|apply N; reflexivity]|].
  apply Forall_cons; [split; [apply lc_row_eq; ring|apply N; reflexivity]|].
  apply Forall_cons; [split; [apply mul_row_eq; ring|apply N; reflexivity]|].
  apply Forall_cons; [split; [apply lc_row_eq; ring|apply N; reflexivity]|].
  apply Forall_nil.
Qed.

Lemma select_0 (x y : F) : (1 - 0) * x + 0 * y = x. Proof. ring. Qed.
Lemma select_1 (x y : F) : (1 - 1) * x + 1 * y = y. Proof. ring. Qed.
Lemma is_equal_value l r c w : w 0%nat = 0 -> w 1%nat = 1 -> sat (snd (is_equal F l r c)) w ->
  w (fst (is_equal F l r c)) = if f_dec (w l) (w r) then 1 else 0.
Proof.
  intros C0 C1 H. unfold is_equal in *. rewrite bnd_eq in *. cbn [ret fst snd] in *.
  apply (is_equal_or_not_decided F l r) in H. exact (proj1 (proj2 H (conj C0 C1))).
Qed.
Lemma is_not_equal_value l r c w : w 0%nat = 0 -> w 1%nat = 1 -> sat (snd (is_not_equal F l r c)) w ->
  w (fst (is_not_equal F l r c)) = if f_dec (w l) (w r) then 0 else 1.
Proof.
  intros C0 C1 H. unfold is_not_equal in *. rewrite bnd_eq in *. cbn [ret fst snd] in *.
  apply (is_equal_or_not_decided F l r) in H. exact (proj2 (proj2 H (conj C0 C1))).
Qed.
Lemma equal_value l r c w : w 0%nat = 0 -> sat (snd (equal F l r c)) w -> w l = w r.
Proof.
  intros C0 H. apply (equal_sound F l r) in H. destruct H as [_ H]. rewrite C0 in H.
  apply (proj1 (fsub_0 F _ _)). now symmetry.
Qed.

Lemma gadgets_complete_lemma c : Inv c ->
  let ok (s : tcs F) := sat s (val s) /\ extends c s in
  forall l r, (l < nvars c)%nat -> (r < nvars c)%nat ->
  ok (snd (add F l r c)) /\ ok (snd (sub F l r c)) /\ ok (snd (mul F l r c)) /\
  (forall k m q1 q2 q3 q4, (k < nvars c)%nat -> (m < nvars c)%nat ->
     ok (snd (linear_combine F l r k m q1 q2 q3 q4 c))) /\
  (forall b, (b < nvars c)%nat -> val c b = 0 \/ val c b = 1 -> ok (snd (select F l r b c))) /\
  ok (snd (is_equal_or_not_equal F l r c)) /\
  (val c l = val c r -> ok (snd (equal F l r c))) /\
  ok (snd (insert_constant_gate F l (val c l) c)) /\
  (val c l = 0 \/ val c l = 1 -> ok (snd (insert_boolean_gate F l c))).
Proof.
  intros HI ok l r Hl Hr.
  assert (G : forall A (m : CS F A) P Q, honest m P Q -> P c -> ok (snd (m c))).
  { intros A m P Q Hm HP. destruct (honest_sat m P Q c Hm HI HP) as [H1 [_ [H2 _]]]. split; assumption. }
  set (S2 := fun s => has F s l (val c l) /\ has F s r (val c r)).
  assert (HS2 : stable F S2) by (apply stable_and; apply has_stable).
  assert (H2 : S2 c) by (split; split; auto).
  assert (P2 : forall s, Inv s -> S2 s -> has F s l (val c l) /\ has F s r (val c r)) by (intros s _ H; exact H).
  split; [exact (G _ _ _ _ (h_add F S2 l r _ _ HS2 P2) H2)|].
  split; [exact (G _ _ _ _ (h_sub F S2 l r _ _ HS2 P2) H2)|].
  split; [exact (G _ _ _ _ (h_mul F S2 l r _ _ HS2 P2) H2)|].
  split.
  { intros k m q1 q2 q3 q4 Hk Hm.
    set (S4 := fun s => has F s l (val c l) /\ has F s r (val c r) /\ has F s k (val c k) /\ has F s m (val c m)).
    assert (HS4 : stable F S4) by (apply stable_and; [apply has_stable|apply stable_and; [apply has_stable|apply stable_and; apply has_stable]]).
    apply (G _ _ _ _ (h_linear_combine F S4 l r k m q1 q2 q3 q4 _ _ _ _ HS4 (fun s _ H => H))).
    repeat split; auto. }
  split.
  { intros b Hb Bb.
    set (S3 := fun s => has F s l (val c l) /\ has F s r (val c r) /\ has F s b (val c b)).
    assert (HS3 : stable F S3) by (apply stable_and; [apply has_stable|apply stable_and; apply has_stable]).
    apply (G _ _ _ _ (h_select F S3 l r b _ _ _ HS3 Bb (fun s _ H => H))). repeat split; auto. }
  split; [exact (G _ _ _ _ (h_is_equal_or_not F S2 l r _ _ HS2 P2) H2)|].
  split.
  { intros E. refine (G _ _ _ _ (h_equal F S2 l r (val c l) HS2 _) H2). intros s _ H. unfold S2 in H. now rewrite <- E in H. }
  split.
  { exact (G _ _ _ _ (h_const_gate F S2 l (val c l) HS2 (fun s _ H => proj1 H)) H2). }
  intros B. exact (G _ _ _ _ (h_boolean_gate F S2 l (val c l) HS2 B (fun s _ H => proj1 H)) H2).
Qed.
End Lemmas.

(** A two-bit range check whose "bits" are 2 and 1: 2*2 + 1 = 5 ... the top digit
    has its own gate, so use the low digit: value 5 = 2*1 + 3. *)
Definition gap_cs : tcs P101 :=
  snd (bnd (new_variable P101 (fofZ 5)) (fun v => range_check P101 v 2) (cs_new P101)).
Lemma verify_witness_boolean_gap : exists (c : tcs P101) (w : list P101),
  verify_witness P101 c w [] = Ok tt /\ ~ sat c (fun i => nth i w 0).
Proof.
  exists gap_cs, [fofZ 0; fofZ 1; fofZ 5; fofZ 3; fofZ 1]. split; [vm_compute; reflexivity|].
  intros H. destruct (range_check_field P101 2 2 ltac:(lia) _ _ H) as [_ [_ [HB _]]].
  cbn in HB. inversion HB as [|? ? [E|E] _]; vm_compute in E; discriminate E.
Qed.
