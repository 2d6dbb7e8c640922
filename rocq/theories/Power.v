(** Powers with binary exponents, Fermat's theorem in a prime field, and roots of
    invertible degree. *)
From Coq Require Import ZArith NArith Lia Znumtheory Ring Field.
From Verif Require Import Field Primality Zp PField.
Local Open Scope F_scope.

(** [Scalar::pow]: algebra/src/traits.rs (trait [Scalar]); the exponent slice of
    64-bit limbs, least significant first, is the number it denotes. *)
Fixpoint pow_pos {F : Field} (x : F) (e : positive) : F :=
  match e with
  | xH => x
  | xO e' => let r := pow_pos x e' in r * r
  | xI e' => let r := pow_pos x e' in r * r * x
  end.
Definition fpowN {F : Field} (x : F) (e : N) : F :=
  match e with N0 => 1 | Npos p => pow_pos x p end.

Section Pow.
Context (F : Field).
Add Field Fpow : (f_th F).

Lemma pow_pos_fpow (x : F) e : pow_pos x e = fpow x (Pos.to_nat e).
Proof.
  induction e as [e IH|e IH|]; cbn [pow_pos].
  - rewrite IH, Pos2Nat.inj_xI. cbn [fpow]. replace (2 * Pos.to_nat e)%nat with (Pos.to_nat e + Pos.to_nat e)%nat by lia.
    rewrite fpow_add. ring.
  - rewrite IH, Pos2Nat.inj_xO. replace (2 * Pos.to_nat e)%nat with (Pos.to_nat e + Pos.to_nat e)%nat by lia.
    now rewrite fpow_add.
  - change (Pos.to_nat 1) with 1%nat. cbn [fpow]. ring.
Qed.
Lemma fpowN_fpow (x : F) e : fpowN x e = fpow x (N.to_nat e).
Proof. destruct e as [|e]; [reflexivity|]. apply pow_pos_fpow. Qed.
Lemma fpowN_mul (x : F) a b : fpowN x (a * b) = fpowN (fpowN x a) b.
Proof. rewrite !fpowN_fpow, N2Nat.inj_mul. apply fpow_mul. Qed.
Lemma fpowN_add (x : F) a b : fpowN x (a + b) = fpowN x a * fpowN x b.
Proof. rewrite !fpowN_fpow, N2Nat.inj_add. apply fpow_add. Qed.
Lemma fpowN_1_l a : fpowN (1 : F) a = 1.
Proof. rewrite fpowN_fpow. apply fpow_1_l. Qed.
Lemma fpowN_0_l a : a <> 0%N -> fpowN (0 : F) a = 0.
Proof.
  intros H. rewrite fpowN_fpow. destruct (N.to_nat a) eqn:E; [lia|]. cbn [fpow]. ring.
Qed.
Lemma fpowN_5 (x : F) : fpowN x 5 = fpow x 5.
Proof. now rewrite fpowN_fpow. Qed.
Lemma fofZ_pow z n : fpow (fofZ z : F) n = fofZ (z ^ Z.of_nat n).
Proof.
  induction n as [|n IH]; [reflexivity|]. cbn [fpow]. rewrite IH, Nat2Z.inj_succ, Z.pow_succ_r by lia.
  now rewrite fofZ_mul.
Qed.
Lemma fofZ_powN z e : fpowN (fofZ z : F) e = fofZ (z ^ Z.of_N e).
Proof. rewrite fpowN_fpow, fofZ_pow. f_equal. f_equal. lia. Qed.
End Pow.

Section PPow.
Context (F : PField).
Add Field Fppow : (f_th F).

Lemma fofZ_pchar : fofZ (F := F) (pchar F) = 0.
Proof.
  pose proof (pchar_gt1 F). rewrite <- (fofZ_toZ F (fofZ (pchar F))), toZ_fofZ, Z_mod_same_full. reflexivity.
Qed.
Lemma fofZ_mod z : fofZ (F := F) (z mod pchar F) = fofZ z.
Proof. rewrite <- (fofZ_toZ F (fofZ z)), toZ_fofZ. reflexivity. Qed.
Lemma fofZ_eq_mod a b : fofZ (F := F) a = fofZ b <-> (a mod pchar F = b mod pchar F)%Z.
Proof.
  split; intros H.
  - rewrite <- !toZ_fofZ. now f_equal.
  - rewrite <- (fofZ_mod a), <- (fofZ_mod b). now f_equal.
Qed.

(** The characteristic of a prime field is prime. *)
Lemma pchar_prime : prime (pchar F).
Proof.
  pose proof (pchar_gt1 F) as P. apply prime_alt. split; [exact P|].
  intros n Hn [k Hk].
  assert (E : fofZ (F := F) k * fofZ n = 0) by (rewrite <- fofZ_mul, <- Hk; apply fofZ_pchar).
  apply fmul_0 in E. assert (0 < k < pchar F)%Z by nia.
  destruct E as [E|E]; eapply (pf_char F); try exact E; lia.
Qed.

Lemma fermat (x : F) : x <> 0 -> fpowN x (Z.to_N (pchar F - 1)) = 1.
Proof.
  intros Hx. pose proof (pchar_gt1 F) as P. pose proof (toZ_range F x) as R.
  rewrite <- (fofZ_toZ F x), fofZ_powN, Z2N.id by lia.
  rewrite <- fofZ_mod, fermat_Z; [reflexivity|apply pchar_prime|lia|].
  intros D. apply Z.divide_pos_le in D; [lia|].
  assert (toZ x <> 0%Z); [|lia]. intros E. apply Hx. rewrite <- (fofZ_toZ F x), E. reflexivity.
Qed.

(** Exponents inverse to each other modulo the group order are inverse maps. *)
Definition exp_inv (a b : N) : Prop :=
  (a <> 0 /\ b <> 0 /\ (a * b) mod (Z.to_N (pchar F - 1)) = 1 mod (Z.to_N (pchar F - 1)))%N.
Lemma pow_inv_l a b (x : F) : exp_inv a b -> fpowN (fpowN x a) b = x.
Proof.
  intros [Ha [Hb H]]. rewrite <- fpowN_mul. pose proof (pchar_gt1 F) as P.
  set (m := Z.to_N (pchar F - 1)) in *. assert (Hm : m <> 0%N) by lia.
  destruct (f_dec x 0) as [->|Hx]; [apply fpowN_0_l; lia|].
  assert (K : forall k, fpowN x (m * k) = 1) by (intros k; rewrite fpowN_mul; unfold m; now rewrite (fermat x Hx), fpowN_1_l).
  assert (E : forall k, fpowN x k = fpowN x (k mod m)).
  { intros k. rewrite (N.div_mod k m Hm) at 1. rewrite fpowN_add, K. ring. }
  rewrite E, H, <- E. cbn. reflexivity.
Qed.
Lemma exp_inv_sym a b : exp_inv a b -> exp_inv b a.
Proof. unfold exp_inv. rewrite (N.mul_comm b a). tauto. Qed.
Lemma pow_inv_r a b (x : F) : exp_inv a b -> fpowN (fpowN x b) a = x.
Proof. intros H. apply pow_inv_l, exp_inv_sym, H. Qed.
Lemma pow_inj a b (x y : F) : exp_inv a b -> fpowN x a = fpowN y a -> x = y.
Proof. intros H E. rewrite <- (pow_inv_l a b x H), <- (pow_inv_l a b y H). now f_equal. Qed.
End PPow.
