(** Proofs about hybrid encryption. *)
From Coq Require Import List NArith ZArith Bool Lia ZifyBool ZifyNat ZifyN.
From Verif Require Import Base UtilsModel NoteModel KeyModel HybModel KeySpec KeyProofs.
Import ListNotations.
Local Open Scope N_scope.

Lemma lle_len n x : length (le_bytes n x) = n.
Proof. revert x. induction n as [|n IH]; intros x; cbn; [reflexivity|now rewrite IH]. Qed.
Lemma le_bytes_app n m : forall x, le_bytes (n + m) x = le_bytes n x ++ le_bytes m (x / 256 ^ N.of_nat n).
Proof.
  induction n as [|n IH]; intros x; [cbn; now rewrite N.div_1_r|].
  cbn [Nat.add le_bytes app]. f_equal. rewrite IH. f_equal. f_equal.
  rewrite Nat2N.inj_succ, N.pow_succ_r', N.div_div by (try apply N.pow_nonzero; lia). reflexivity.
Qed.
Lemma le_bytes_mod n : forall x, le_bytes n (x mod 256 ^ N.of_nat n) = le_bytes n x.
Proof.
  induction n as [|n IH]; intros x; [reflexivity|]. cbn [le_bytes]. rewrite Nat2N.inj_succ, N.pow_succ_r'.
  assert (P : 256 ^ N.of_nat n <> 0) by (apply N.pow_nonzero; lia).
  rewrite N.mod_mul_r by (lia || exact P). f_equal.
  - rewrite (N.mul_comm 256 ((x / 256) mod _)), N.mod_add by lia. apply N.mod_mod. lia.
  - rewrite <- (IH (x / 256)). f_equal. rewrite (N.mul_comm 256 ((x / 256) mod _)), N.div_add by lia.
    rewrite (N.div_small (x mod 256)) by (apply N.mod_lt; lia). apply N.add_0_l.
Qed.
Lemma convert_limbs x : convert_scalar (limbs32 x) = le_bytes 32 x.
Proof.
  unfold convert_scalar, limbs32. rewrite firstn_all2 by (rewrite map_length, seq_length; lia).
  rewrite flat_map_concat_map, map_map.
  rewrite (map_ext _ (fun i => le_bytes 4 (x / 2 ^ (32 * N.of_nat i)))).
  2: { intros i. change (2 ^ 32) with (256 ^ N.of_nat 4). apply le_bytes_mod. }
  assert (G : forall k j, concat (map (fun i => le_bytes 4 (x / 2 ^ (32 * N.of_nat i))) (seq j k)) = le_bytes (4 * k) (x / 2 ^ (32 * N.of_nat j))).
  { induction k as [|k IH]; intros j; [reflexivity|]. cbn [seq map concat]. rewrite IH. replace (4 * S k)%nat with (4 + 4 * k)%nat by lia.
    rewrite le_bytes_app. f_equal. f_equal. rewrite N.div_div by (try apply N.pow_nonzero; lia). f_equal.
    replace (32 * N.of_nat (S j)) with (32 * N.of_nat j + 32) by lia. rewrite N.pow_add_r. reflexivity. }
  rewrite (G 8%nat 0%nat). change (2 ^ (32 * N.of_nat 0)) with 1. now rewrite N.div_1_r.
Qed.

Lemma land_last a : N.land (N.lor (N.land a 127) 64) 127 = N.lor (N.land a 127) 64.
Proof. rewrite N.land_lor_distr_l, <- N.land_assoc. reflexivity. Qed.
Lemma lor_last a : N.lor (N.lor (N.land a 127) 64) 64 = N.lor (N.land a 127) 64.
Proof. now rewrite <- N.lor_assoc. Qed.
Lemma clamp_len e : length e = 32%nat -> length (clamp e) = 32%nat.
Proof. destruct e as [|b r]; [discriminate|]. cbn [length clamp]. intros E. rewrite app_length, firstn_length. cbn [length]. lia. Qed.
(** Extracting the clamped scalar through the Ristretto scalar and clamping again
    changes nothing. *)
Lemma clamp_ristretto e : length e = 32%nat -> exists s, ristretto_bits (clamp e) = Ok s /\ clamp s = clamp e.
Proof.
  intros L. unfold ristretto_bits. rewrite (clamp_len e L). change (Nat.ltb 32 32) with false. cbv iota. rewrite Nat.sub_diag. cbn [repeat].
  rewrite app_nil_r. eexists. split; [reflexivity|]. destruct e as [|b r]; [discriminate|]. cbn [length] in L. injection L as L.
  assert (Lf : length (firstn 30 r) = 30%nat) by (rewrite firstn_length; lia). cbn [clamp]. revert Lf. generalize (firstn 30 r) as f. intros f Lf.
  generalize (nth 30 r 0) as v. intros v.
  change (firstn 31 (N.land b 248 :: f ++ [N.lor (N.land v 127) 64])) with (N.land b 248 :: firstn 30 (f ++ [N.lor (N.land v 127) 64])).
  change (nth 31 (N.land b 248 :: f ++ [N.lor (N.land v 127) 64]) 0) with (nth 30 (f ++ [N.lor (N.land v 127) 64]) 0).
  rewrite (firstn_app_len 30 f _ Lf), (nth_app_len 30 f _ _ Lf). cbn [nth app clamp]. rewrite (firstn_app_len 30 f _ Lf), (nth_app_len 30 f _ _ Lf).
  cbn [nth]. rewrite !land_last, lor_last, <- N.land_assoc. reflexivity.
Qed.

Section Hybrid.
Context (H : hsuite).
Lemma xor_twice key m : forall i, xor_from H i key (xor_from H i key m) = m.
Proof.
  induction m as [|x m IH]; intros i; cbn; [reflexivity|]. rewrite IH, N.lxor_assoc, N.lxor_nilpotent, N.lxor_0_r. reflexivity.
Qed.
Lemma xor_len key m : forall i, length (xor_from H i key m) = length m.
Proof. induction m as [|x m IH]; intros i; cbn; [reflexivity|now rewrite IH]. Qed.
Fixpoint xors (a b : bytes) : bytes := match a, b with x :: a', y :: b' => N.lxor x y :: xors a' b' | _, _ => [] end.
Lemma xor_mall key : forall m d i, length d = length m -> xor_from H i key (xors (xor_from H i key m) d) = xors m d.
Proof.
  induction m as [|x m IH]; intros [|y d] i L; try discriminate; [reflexivity|]. cbn. rewrite IH by (cbn in L; lia). f_equal.
  rewrite (N.lxor_assoc x), (N.lxor_comm (keystream H key i) y), <- (N.lxor_assoc x), N.lxor_assoc, N.lxor_nilpotent, N.lxor_0_r. reflexivity.
Qed.
End Hybrid.
