(** C42: the zero check of simulated elements needs the value of variable 0. *)
From Coq Require Import List ZArith Bool Lia.
From Verif Require Import Base Field PField Zp Primality TurboModel TurboSpec SimModel SimSpec SimProofs SimForge SimProps.
Import ListNotations.
Local Open Scope Z_scope.

(** [C42_circuit_sound_partial] assumes that variable 0 carries the field's zero,
    which no gate of the system demands.  Without that assumption the statement is
    false: the circuit that asks [a * a] to be zero modulo the Ristretto order is
    satisfied by an assignment with minus one in variable 0 and the element 1, with
    limbs 1, 0, 0, 0, 0, 0, for [a]. *)
Theorem C42_forged_zero : let '(a, c) := alloc_input (from ristretto 0) (cs_new BLS) in
  exists c' w, zero_circuit ristretto (Times (Leaf a) (Leaf a)) c = Ok (tt, c') /\ sat c' w /\
    w 0%nat = fopp f1 /\ wlimbs w (svar a) = [1; 0; 0; 0; 0; 0].
Proof. exact (forge BLS bls_254). Qed.
Lemma one_not_zero : let n := number (2 ^ Z.of_nat (BIT_PER_LIMB ristretto)) [1; 0; 0; 0; 0; 0] in
  (n * n) mod modulus ristretto <> 0.
Proof. vm_compute. discriminate. Qed.
Theorem C42_circuit_sound_refuted : ~ forall e c c', zero_circuit (F := BLS) ristretto e c = Ok (tt, c') ->
  forall w, sat c' w -> mleaves (fun v => limbs_ok ristretto (red (sv v)) (wlimbs w (svar v))) e ->
  mmean (fun v => wnumber ristretto w (svar v)) e mod modulus ristretto = 0.
Proof.
  intros H. pose proof C42_forged_zero as G. destruct (alloc_input (from ristretto 0) (cs_new BLS)) as [a c] eqn:E.
  assert (Er : red (sv a) = Strict).
  { change a with (fst (a, c)). rewrite <- E. unfold alloc_input, bnd.
    match goal with |- context [let '(_, _) := ?m ?s in _] => now destruct (m s) end. }
  destruct G as (c' & w & Z & S & _ & L). specialize (H _ _ _ Z w S). cbn [mleaves sleaves mmean smean] in H.
  unfold wnumber in H. rewrite L, Er in H.
  assert (K : limbs_ok ristretto Strict [1; 0; 0; 0; 0; 0]).
  { split; [reflexivity|]. split; [|exact I]. intros i Hi. do 6 (destruct i as [|i]; [vm_compute; split; congruence|]). lia. }
  exact (one_not_zero (H (conj K K))).
Qed.
Print Assumptions C42_forged_zero.
Print Assumptions C42_circuit_sound_refuted.
