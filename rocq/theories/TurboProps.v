(** Property theorems for the circuit builder's basic gadgets (C33, C34, C37). *)
From Coq Require Import List ZArith Bool Lia.
From Verif Require Import Base Field PField TurboModel TurboSpec TurboProofs TurboHonest TurboLemmas.
Import ListNotations.
Local Open Scope F_scope.

(** C33: over any constraint system and for every bit length, the range-check
    constraints on a variable of value [x] are satisfiable iff [x < 2^n]. *)
Theorem C33_range_check_satisfiable_iff :
  forall (F : PField) (c : tcs F) (v n : nat) (x : F),
  Inv c -> (2 <= n)%nat -> (v < nvars c)%nat -> val c v = x ->
  ((exists w, sat (snd (range_check F v n c)) w /\ w v = x) <-> (toZ x < 2 ^ Z.of_nat n)%Z).
Proof. intros F c v n x HI Hn Hv Hx. exact (sat_exists_range F c v n x HI Hn (conj Hv Hx)). Qed.
Print Assumptions C33_range_check_satisfiable_iff.

(** C33: in every satisfying assignment (prover-chosen, not only the honest one)
    the returned variables are the binary digits of the value, low digit first. *)
Theorem C33_range_check_bits :
  forall (F : PField) (c : tcs F) (v n : nat) (w : nat -> F),
  (2 <= n)%nat -> (2 ^ Z.of_nat n <= pchar F)%Z ->
  sat (snd (range_check F v n c)) w ->
  sat c w /\ length (fst (range_check F v n c)) = n /\ (toZ (w v) < 2 ^ Z.of_nat n)%Z /\
  forall i, (i < n)%nat ->
    w (nth i (fst (range_check F v n c)) 0%nat) = if Z.testbit (toZ (w v)) (Z.of_nat i) then 1 else 0.
Proof. intros F c v n w Hn Hp Hs. exact (range_check_sound F v n Hn Hp c w Hs). Qed.
Print Assumptions C33_range_check_bits.

(** C33, bit lengths beyond the field size: the bits are boolean and denote a
    number congruent to the value. *)
Theorem C33_range_check_bits_any_length :
  forall (F : PField) (c : tcs F) (v n : nat) (w : nat -> F),
  (2 <= n)%nat -> sat (snd (range_check F v n c)) w ->
  exists bs : list bool, length bs = n /\
    map w (fst (range_check F v n c)) = map (fun b : bool => if b then 1 else 0) bs /\
    toZ (w v) = (bitsZ (map Z.b2z bs) mod pchar F)%Z.
Proof.
  intros F c v n w Hn Hs. destruct (range_check_field F v n Hn c w Hs) as [_ [Hl [Hb Hv]]].
  destruct (fbits_Z F w _ Hb) as [bs [H1 H2]]. exists bs. split; [|split].
  - apply (f_equal (@length F)) in H1. rewrite !map_length in H1. congruence.
  - rewrite H1. apply map_ext. intros []; reflexivity.
  - rewrite Hv, H2. apply toZ_fofZ.
Qed.
Print Assumptions C33_range_check_bits_any_length.

(** A 64-bit range check of 2^64-1 in the BLS12-381 scalar field is satisfiable,
    of 2^64 is not. *)
Definition c33_cs (z : Z) : tcs BLS := snd (new_variable BLS (fofZ z) (cs_new BLS)).
Example C33_case_hypotheses z : Inv (c33_cs z) /\ (2 < nvars (c33_cs z))%nat /\ val (c33_cs z) 2 = fofZ z.
Proof.
  split; [|split; [cbn; lia|reflexivity]].
  destruct (honest_new BLS (fofZ z) (cs_new BLS) (inv_new BLS) I) as [H _]. exact H.
Qed.
Example C33_case_gates : size (snd (range_check P101 2 6 (snd (new_variable P101 (fofZ 37) (cs_new P101))))) = 3%nat.
Proof. reflexivity. Qed.

(** C34: with variable 0 equal to zero and variable 1 equal to one, every
    satisfying assignment gives each gadget's output its specified value. *)
Theorem C34_gadgets_compute_partial :
  forall (F : PField) (c : tcs F) (w : nat -> F), w 0%nat = 0 -> w 1%nat = 1 ->
  (forall l r, sat (snd (add F l r c)) w -> w (fst (add F l r c)) = w l + w r) /\
  (forall l r, sat (snd (sub F l r c)) w -> w (fst (sub F l r c)) = w l - w r) /\
  (forall l r, sat (snd (mul F l r c)) w -> w (fst (mul F l r c)) = w l * w r) /\
  (forall i j k l q1 q2 q3 q4, sat (snd (linear_combine F i j k l q1 q2 q3 q4 c)) w ->
     w (fst (linear_combine F i j k l q1 q2 q3 q4 c)) = q1 * w i + q2 * w j + q3 * w k + q4 * w l) /\
  (forall v0 v1 b, sat (snd (select F v0 v1 b c)) w ->
     (w b = 0 -> w (fst (select F v0 v1 b c)) = w v0) /\ (w b = 1 -> w (fst (select F v0 v1 b c)) = w v1)) /\
  (forall l r, sat (snd (is_equal F l r c)) w ->
     w (fst (is_equal F l r c)) = if f_dec (w l) (w r) then 1 else 0) /\
  (forall l r, sat (snd (is_not_equal F l r c)) w ->
     w (fst (is_not_equal F l r c)) = if f_dec (w l) (w r) then 0 else 1) /\
  (forall l r, sat (snd (equal F l r c)) w -> w l = w r) /\
  (forall v k, sat (snd (insert_constant_gate F v k c)) w -> w v = k) /\
  (forall v, sat (snd (insert_boolean_gate F v c)) w -> w v = 0 \/ w v = 1).
Proof.
  intros F c w C0 C1. repeat split.
  - intros l r H. exact (proj2 (add_sound F l r c w H)).
  - intros l r H. exact (proj2 (sub_sound F l r c w H)).
  - intros l r H. exact (proj2 (mul_sound F l r c w H)).
  - intros i j k l q1 q2 q3 q4 H. exact (proj2 (linear_combine_sound F i j k l q1 q2 q3 q4 c w H)).
  - intros Hb. rewrite (proj2 (select_sound F v0 v1 b c w H)), Hb. apply select_0.
  - intros Hb. rewrite (proj2 (select_sound F v0 v1 b c w H)), Hb. apply select_1.
  - intros l r H. exact (is_equal_value F l r c w C0 C1 H).
  - intros l r H. exact (is_not_equal_value F l r c w C0 C1 H).
  - intros l r H. exact (equal_value F l r c w C0 H).
  - intros v k H. exact (proj2 (const_gate_sound F v k c w H)).
  - intros v H. exact (proj2 (boolean_gate_sound F v c w H)).
Qed.
Print Assumptions C34_gadgets_compute_partial.

(** C34: arithmetic, selection, constants and booleans need no convention. *)
Theorem C34_arithmetic_gadgets_compute :
  forall (F : PField) (c : tcs F) (w : nat -> F),
  (forall l r, sat (snd (add F l r c)) w -> w (fst (add F l r c)) = w l + w r) /\
  (forall l r, sat (snd (sub F l r c)) w -> w (fst (sub F l r c)) = w l - w r) /\
  (forall l r, sat (snd (mul F l r c)) w -> w (fst (mul F l r c)) = w l * w r) /\
  (forall i j k l q1 q2 q3 q4, sat (snd (linear_combine F i j k l q1 q2 q3 q4 c)) w ->
     w (fst (linear_combine F i j k l q1 q2 q3 q4 c)) = q1 * w i + q2 * w j + q3 * w k + q4 * w l) /\
  (forall v k, sat (snd (insert_constant_gate F v k c)) w -> w v = k) /\
  (forall v, sat (snd (insert_boolean_gate F v c)) w -> w v = 0 \/ w v = 1).
Proof.
  intros F c w. repeat split.
  - intros l r H. exact (proj2 (add_sound F l r c w H)).
  - intros l r H. exact (proj2 (sub_sound F l r c w H)).
  - intros l r H. exact (proj2 (mul_sound F l r c w H)).
  - intros i j k l q1 q2 q3 q4 H. exact (proj2 (linear_combine_sound F i j k l q1 q2 q3 q4 c w H)).
  - intros v k H. exact (proj2 (const_gate_sound F v k c w H)).
  - intros v H. exact (proj2 (boolean_gate_sound F v c w H)).
Qed.
Print Assumptions C34_arithmetic_gadgets_compute.

(** C34, completeness: in a satisfied system the prover's own values satisfy what
    each gadget adds, for all inputs (a boolean selector for [select]). *)
Theorem C34_gadgets_complete :
  forall (F : PField) (c : tcs F), Inv c ->
  let ok (s : tcs F) := sat s (val s) /\ extends c s in
  forall l r, (l < nvars c)%nat -> (r < nvars c)%nat ->
  ok (snd (add F l r c)) /\ ok (snd (sub F l r c)) /\ ok (snd (mul F l r c)) /\
  (forall k m q1 q2 q3 q4, (k < nvars c)%nat -> (m < nvars c)%nat ->
     ok (snd (linear_combine F l r k m q1 q2 q3 q4 c))) /\
  (forall b, (b < nvars c)%nat -> val c b = 0 \/ val c b = 1 -> ok (snd (select F l r b c))) /\
  ok (snd (is_equal_or_not_equal F l r c)) /\
  (val c l = val c r -> ok (snd (equal F l r c))) /\
  ok (snd (insert_constant_gate F l (val c l) c)) /\
  (val c l = 0 \/ val c l = 1 -> ok (snd (insert_boolean_gate F l c))).
Proof. exact gadgets_complete_lemma. Qed.
Print Assumptions C34_gadgets_complete.

(** C34 fails without the convention, and nothing in the system enforces it: an
    [equal] constraint on any two values is satisfiable... *)
Theorem C34_equal_unanchored_refuted :
  forall (F : PField) (x y : F), exists w, sat (equal_system F x y) w /\ w 2%nat = x /\ w 3%nat = y.
Proof. exact equal_system_any. Qed.
Print Assumptions C34_equal_unanchored_refuted.
(** ... and two equal values can be given [is_equal = 0]. *)
Theorem C34_is_equal_unanchored_refuted :
  forall (F : PField) (x : F), exists w,
  sat (snd (is_equal_system F x x)) w /\ w 0%nat = 0 /\ w 2%nat = x /\ w 3%nat = x /\
  w (fst (is_equal_system F x x)) = 0.
Proof. exact is_equal_system_zero. Qed.
Print Assumptions C34_is_equal_unanchored_refuted.

(** The hypotheses of the C34 theorems hold of the fresh system with two inputs. *)
Definition c34_cs : tcs P101 :=
  snd (new_variable P101 (fofZ 7) (snd (new_variable P101 (fofZ 5) (cs_new P101)))).
Example C34_case : Inv c34_cs /\ val c34_cs 2 = fofZ 5 /\ val c34_cs 3 = fofZ 7 /\
  val (snd (mul P101 2 3 c34_cs)) (fst (mul P101 2 3 c34_cs)) = fofZ 35.
Proof.
  split; [|repeat split; reflexivity].
  destruct (honest_new P101 (fofZ 5) (cs_new P101) (inv_new P101) I) as [H _].
  destruct (honest_new P101 (fofZ 7) _ H I) as [H' _]. exact H'.
Qed.

(** C37: padding reaches the least power of two and changes no witness. *)
Theorem C37_padding_preserves_witnesses :
  forall (F : PField) (c : tcs F),
  (forall w, sat (pad F c) w <-> sat c w) /\
  nvars (pad F c) = nvars c /\ wit (pad F c) = wit c /\
  exists k, size (pad F c) = (2 ^ k)%nat /\ (size c <= 2 ^ k)%nat /\
            forall j, (size c <= 2 ^ j)%nat -> (2 ^ k <= 2 ^ j)%nat.
Proof.
  intros F c. split; [exact (pad_sat F c)|]. split; [reflexivity|]. split; [reflexivity|].
  rewrite pad_size. exact (next_power_least (size c)).
Qed.
Print Assumptions C37_padding_preserves_witnesses.

(** C37: [verify_witness] accepts iff the witness has one value per variable, the
    online values are those of the public variables, and every gate equation holds. *)
Theorem C37_verify_witness_iff_gates :
  forall (F : PField) (c : tcs F) (w online : list F),
  verify_witness F c w online = Ok tt <->
  length w = nvars c /\ online = map (fun v => nth v w 0) (pub_vars F (gates c)) /\
  Forall (gate_eq (fun i => nth i w 0)) (gates c).
Proof. exact verify_witness_iff. Qed.
Print Assumptions C37_verify_witness_iff_gates.

(** C37: declaring a variable public adds exactly the constraint that the next online value is
    the value of that variable. *)
Theorem C37_public_input_binds :
  forall (F : PField) (c : tcs F) (v : nat) (w online : list F) (x : F),
  verify_witness F (snd (prepare_pi_variable F v c)) w (online ++ [x]) = Ok tt <->
  verify_witness F c w online = Ok tt /\ nth v w 0 = x.
Proof.
  intros F c v w online x. rewrite !verify_witness_iff.
  assert (G : gates (snd (prepare_pi_variable F v c)) = gates c ++ [const_row F v 0 (Some v)]) by reflexivity.
  assert (P : pub_vars F (gates (snd (prepare_pi_variable F v c))) = pub_vars F (gates c) ++ [v]).
  { rewrite G. generalize (gates c). unfold pub_vars. induction l as [|g l IH]; cbn; [reflexivity|]. destruct (g_pub g); cbn in *; now rewrite IH. }
  rewrite P, map_app, G. cbn [map]. rewrite Forall_app. split.
  - intros [L [O [A _]]]. apply app_inj_tail in O. destruct O as [-> ->]. auto.
  - intros [[L [-> A]] <-]. repeat split; auto. constructor; [|constructor]. apply pub_row_eq.
Qed.
Print Assumptions C37_public_input_binds.

(** C37: it does not check the boolean constraints attached to gates, so it
    accepts witnesses that the proof system rejects. *)
Theorem C37_verify_witness_ignores_booleans_refuted :
  exists (c : tcs P101) (w : list P101),
  verify_witness P101 c w [] = Ok tt /\ ~ sat c (fun i => nth i w 0).
Proof. exact verify_witness_boolean_gap. Qed.
Print Assumptions C37_verify_witness_ignores_booleans_refuted.

(** C37: the gate polynomial is the selector/multiplier product the prover's
    linearisation uses. *)
Theorem C37_gate_is_linear_in_selectors :
  forall (F : PField) (g : gate F) (a b c d o pi : F),
  eval_gate F g a b c d o pi
  = fold_right (fun p acc => fst p * snd p + acc) 0
      (combine (selectors_of F g) (selector_multipliers F a b c d o)) + pi.
Proof. exact eval_gate_linear. Qed.
Print Assumptions C37_gate_is_linear_in_selectors.

Definition c37_cs : tcs P101 :=
  snd (bnd (new_variable P101 (fofZ 37)) (fun v => bnd (range_check P101 v 6) (fun _ => prepare_pi_variable P101 v)) (cs_new P101)).
Example C37_case : size c37_cs = 4%nat /\ verify_witness P101 c37_cs (wit c37_cs) [fofZ 37] = Ok tt /\
  verify_witness P101 c37_cs (wit c37_cs) [fofZ 36] = Err.
Proof. vm_compute. auto. Qed.
