(** Prime fields Z/p as instances of [Field], and the concrete scalar fields of
    /repo.  [finv] is Fermat's inverse x^(p-2) (0 for 0), which is what
    `Scalar::inv` computes on nonzero input (algebra/src/traits.rs, trait Scalar). *)
From Coq Require Import ZArith Znumtheory Lia Field Eqdep_dec Bool.
From Verif Require Import Field Primality.
Local Open Scope Z_scope.

Section ZpDef.
Context (p : Z) (Hp : prime p).

Lemma p_gt1 : 1 < p.
Proof. apply prime_ge_2 in Hp. lia. Qed.

Definition zp := { z : Z | (z mod p =? z) = true }.
Definition zval (x : zp) : Z := proj1_sig x.

Lemma zp_ok z : ((z mod p) mod p =? z mod p) = true.
Proof. apply Z.eqb_eq. apply Z.mod_mod. pose proof p_gt1. lia. Qed.

Definition mkzp (z : Z) : zp := exist _ (z mod p) (zp_ok z).

Lemma zp_ext (x y : zp) : zval x = zval y -> x = y.
Proof.
  destruct x as [x hx], y as [y hy]. cbn. intros ->. f_equal.
  apply UIP_dec. apply bool_dec.
Qed.

Lemma zval_mod x : zval x mod p = zval x.
Proof. destruct x as [x hx]. cbn. now apply Z.eqb_eq. Qed.

Lemma zval_range x : 0 <= zval x < p.
Proof. rewrite <- zval_mod. apply Z.mod_pos_bound. pose proof p_gt1. lia. Qed.

Lemma mkzp_zval x : mkzp (zval x) = x.
Proof. apply zp_ext. cbn. apply zval_mod. Qed.

Definition zp_add (x y : zp) := mkzp (zval x + zval y).
Definition zp_mul (x y : zp) := mkzp (zval x * zval y).
Definition zp_sub (x y : zp) := mkzp (zval x - zval y).
Definition zp_opp (x : zp) := mkzp (- zval x).
Definition zp_inv (x : zp) := mkzp (powmod (zval x) (p - 2) p).
Definition zp_div (x y : zp) := zp_mul x (zp_inv y).

Ltac zp_ring :=
  intros; apply zp_ext; cbn -[Z.modulo];
  pose proof p_gt1;
  repeat (rewrite ?Z.add_mod_idemp_l, ?Z.add_mod_idemp_r, ?Z.mul_mod_idemp_l,
          ?Z.mul_mod_idemp_r, ?Zminus_mod_idemp_l, ?Zminus_mod_idemp_r by lia);
  try (f_equal; ring).

Lemma zp_ring_th : ring_theory (mkzp 0) (mkzp 1) zp_add zp_mul zp_sub zp_opp eq.
Proof.
  constructor.
  - intros x. apply zp_ext. cbn -[Z.modulo]. rewrite (Z.mod_small 0) by (pose proof p_gt1; lia).
    apply zval_mod.
  - zp_ring.
  - zp_ring.
  - intros x. apply zp_ext. cbn -[Z.modulo]. pose proof p_gt1.
    rewrite Z.mul_mod_idemp_l by lia. rewrite Z.mul_1_l. apply zval_mod.
  - zp_ring.
  - zp_ring.
  - zp_ring.
  - zp_ring.
  - zp_ring.
Qed.

Lemma zp_field_th :
  field_theory (mkzp 0) (mkzp 1) zp_add zp_mul zp_sub zp_opp zp_div zp_inv eq.
Proof.
  pose proof p_gt1 as P1.
  constructor.
  - apply zp_ring_th.
  - intros H. apply (f_equal zval) in H. cbn -[Z.modulo] in H.
    rewrite !Z.mod_small in H by lia. lia.
  - reflexivity.
  - intros x Hx. apply zp_ext. cbn -[Z.modulo powmod].
    rewrite Z.mul_mod_idemp_l by lia.
    rewrite powmod_spec by lia.
    rewrite Z.mul_mod_idemp_l by lia.
    replace (zval x ^ (p - 2) * zval x) with (zval x ^ (p - 1)).
    + rewrite (Z.mod_small 1) by lia.
      pose proof (zval_range x).
      apply fermat_Z; [assumption|lia|].
      intros D. apply Hx. apply zp_ext. cbn -[Z.modulo].
      rewrite (Z.mod_small 0) by lia.
      apply Z.mod_divide in D; [|lia]. now rewrite zval_mod in D.
    + replace (p - 1) with ((p - 2) + 1) by ring.
      rewrite Z.pow_add_r by lia. now rewrite Z.pow_1_r.
Qed.

Definition zp_dec (x y : zp) : {x = y} + {x <> y}.
Proof.
  destruct (Z.eqb (zval x) (zval y)) eqn:E.
  - left. apply zp_ext. now apply Z.eqb_eq.
  - right. intros ->. now rewrite Z.eqb_refl in E.
Defined.

Definition Zp : Field :=
  mkField zp (mkzp 0) (mkzp 1) zp_add zp_mul zp_sub zp_opp zp_div zp_inv
          zp_field_th zp_dec.

Lemma zval_add (x y : Zp) : zval (fadd x y) = (zval x + zval y) mod p.
Proof. reflexivity. Qed.
Lemma zval_mul (x y : Zp) : zval (fmul x y) = (zval x * zval y) mod p.
Proof. reflexivity. Qed.
Lemma zval_opp (x : Zp) : zval (fopp x) = (- zval x) mod p.
Proof. reflexivity. Qed.

Lemma mkzp_add a b : (mkzp (a + b) : Zp) = fadd (mkzp a : Zp) (mkzp b).
Proof. apply zp_ext. cbn -[Z.modulo]. apply Z.add_mod. pose proof p_gt1. lia. Qed.
Lemma mkzp_mul a b : (mkzp (a * b) : Zp) = fmul (mkzp a : Zp) (mkzp b).
Proof. apply zp_ext. cbn -[Z.modulo]. apply Z.mul_mod. pose proof p_gt1. lia. Qed.

Lemma fofZ_pos (q : positive) : fofZ (F := Zp) (Zpos q) = mkzp (Zpos q).
Proof.
  induction q as [|q IH] using Pos.peano_ind.
  - reflexivity.
  - rewrite <- Pos.add_1_r, Pos2Z.inj_add, fofZ_add, IH. symmetry. apply mkzp_add.
Qed.

Lemma fofZ_mkzp z : fofZ (F := Zp) z = mkzp z.
Proof.
  destruct z as [|q|q].
  - reflexivity.
  - apply fofZ_pos.
  - change (Z.neg q) with (- Z.pos q). rewrite fofZ_opp, fofZ_pos.
    apply zp_ext. cbn -[Z.modulo]. pose proof p_gt1.
    rewrite <- (Z.sub_0_l (Z.pos q mod p)). now rewrite Zminus_mod_idemp_r.
Qed.

Lemma zval_fofZ z : zval (fofZ (F := Zp) z) = z mod p.
Proof. rewrite fofZ_mkzp. reflexivity. Qed.

Lemma fofZ_zval (x : Zp) : fofZ (F := Zp) (zval x) = x.
Proof. rewrite fofZ_mkzp. apply mkzp_zval. Qed.

Lemma Zp_char : char_ge Zp p.
Proof.
  intros z Hz H. apply (f_equal zval) in H. rewrite zval_fofZ in H.
  cbn -[Z.modulo] in H. rewrite !Z.mod_small in H by lia. lia.
Qed.
End ZpDef.

Arguments zval {p} _.
Arguments zp_ext {p} _ _ _.

(** The scalar fields of /repo (algebra/src/{bls12_381,ristretto,secp256k1}.rs). *)
Definition BLSFr : Field := Zp bls_r bls_r_prime.
Definition RistrettoFr : Field := Zp ristretto_l ristretto_l_prime.

(** A small field, for readable examples. *)
Lemma prime_101 : prime 101.
Proof. apply small_prime_sound. vm_compute. reflexivity. Qed.
Definition F101 : Field := Zp 101 prime_101.
