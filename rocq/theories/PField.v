(** Prime fields with their canonical integer representatives (what
    [Scalar::to_bytes] encodes). *)
From Coq Require Import List ZArith Lia.
From Verif Require Import Field Primality Zp.
Local Open Scope Z_scope.

Record PField := mkPField {
  pfield :> Field;
  pchar : Z;
  toZ : pfield -> Z;
  toZ_range : forall x, 0 <= toZ x < pchar;
  fofZ_toZ : forall x, fofZ (toZ x) = x;
  toZ_fofZ : forall z, toZ (fofZ z) = z mod pchar;
}.
Arguments toZ {_} _.

Section Facts.
Context (F : PField).

Lemma pchar_gt1 : 1 < pchar F.
Proof.
  pose proof (toZ_range F f0) as H0. pose proof (toZ_range F f1) as H1.
  destruct (Z.eq_dec (pchar F) 1) as [e|]; [exfalso|lia].
  apply (f1_neq_0 F). rewrite <- (fofZ_toZ F f1), <- (fofZ_toZ F f0).
  f_equal. lia.
Qed.

Lemma toZ_inj (x y : F) : toZ x = toZ y -> x = y.
Proof. intros H. now rewrite <- (fofZ_toZ F x), <- (fofZ_toZ F y), H. Qed.

Lemma toZ_small z : 0 <= z < pchar F -> toZ (fofZ (F := F) z) = z.
Proof. intros H. rewrite toZ_fofZ. now apply Z.mod_small. Qed.

Lemma pf_char : char_ge F (pchar F).
Proof.
  intros z Hz H. pose proof (toZ_small z ltac:(lia)) as H1. rewrite H in H1.
  pose proof (toZ_fofZ F 0) as H2. change (fofZ (F := F) 0) with (f0 : F) in H2.
  rewrite Zmod_0_l in H2. lia.
Qed.

Lemma toZ_0 : toZ (f0 : F) = 0.
Proof. change (f0 : F) with (fofZ (F := F) 0). rewrite toZ_fofZ. apply Zmod_0_l. Qed.
Lemma toZ_1 : toZ (f1 : F) = 1.
Proof. change (f1 : F) with (fofZ (F := F) 1). apply toZ_small. pose proof pchar_gt1. lia. Qed.
End Facts.

Definition ZpP (p : Z) (Hp : Znumtheory.prime p) : PField :=
  {| pfield := Zp p Hp; pchar := p; toZ := fun x : Zp p Hp => zval x;
     toZ_range := fun x => zval_range p Hp x;
     fofZ_toZ := fofZ_zval p Hp; toZ_fofZ := zval_fofZ p Hp |}.

Definition BLS : PField := ZpP bls_r bls_r_prime.
Definition P101 : PField := ZpP 101 prime_101.
