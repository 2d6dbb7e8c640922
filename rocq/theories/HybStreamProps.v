(** C46, hybrid encryption: the shape of the symmetric cipher. *)
From Coq Require Import List NArith Bool Lia.
From Verif Require Import Base UtilsModel NoteModel KeyModel HybModel.
Import ListNotations.
Local Open Scope N_scope.

(** Counter mode: the byte at position [i] of the ciphertext is the byte at position
    [i] of the message masked with the byte at position [i] of the key stream, so that
    within one message no byte of the key stream masks two bytes.  Decryption is
    the same operation. *)
Theorem C46_each_byte_has_its_own_mask :
  forall (H : hsuite) key m i x, nth_error m i = Some x ->
  nth_error (symmetric_encrypt H key m) i = Some (N.lxor x (keystream H key i)) /\
  nth_error (symmetric_decrypt H key m) i = Some (N.lxor x (keystream H key i)).
Proof.
  intros H key m i x.
  enough (G : forall m j i, nth_error m i = Some x -> nth_error (xor_from H j key m) i = Some (N.lxor x (keystream H key (j + i)%nat))).
  { intros E. unfold symmetric_encrypt, symmetric_decrypt. now rewrite (G m 0%nat i E). }
  clear. induction m as [|y m IH]; intros j [|i] E; try discriminate.
  - injection E as ->. cbn. now rewrite PeanoNat.Nat.add_0_r.
  - cbn [xor_from nth_error] in *. rewrite (IH (S j) i E). now rewrite <- PeanoNat.Nat.add_succ_comm.
Qed.
Print Assumptions C46_each_byte_has_its_own_mask.

(** Two messages under one key and hence one key stream: the XOR of the ciphertexts is
    the XOR of the messages.  Every call draws a fresh ephemeral key; this says what is
    lost if the randomness repeats. *)
Theorem C46_repeated_randomness_reveals :
  forall (H : hsuite) e pk m1 m2 i x y, nth_error m1 i = Some x -> nth_error m2 i = Some y ->
  exists a b, nth_error (hc_ct (hybrid_encrypt_x H e pk m1)) i = Some a /\
              nth_error (hc_ct (hybrid_encrypt_x H e pk m2)) i = Some b /\ N.lxor a b = N.lxor x y.
Proof.
  intros H e pk m1 m2 i x y E1 E2. unfold hybrid_encrypt_x. destruct (key_from_x_pk H e pk) as [key eph]. cbn [hc_ct].
  exists (N.lxor x (keystream H key i)), (N.lxor y (keystream H key i)).
  split; [apply (C46_each_byte_has_its_own_mask H key m1 i x E1)|]. split; [apply (C46_each_byte_has_its_own_mask H key m2 i y E2)|].
  rewrite N.lxor_assoc, (N.lxor_comm y), <- (N.lxor_assoc _ _ y), N.lxor_nilpotent, N.lxor_0_l. reflexivity.
Qed.
Print Assumptions C46_repeated_randomness_reveals.

Example C46_stream_case :
  let H := mkHs (fun b => b) (fun b => b) (fun a b => a ++ b) [9] (fun b => Some b) (fun k i => N.of_nat (length k + i)) in
  hc_ct (hybrid_encrypt_x H (repeat 1 32) [7] [5; 5; 5]) = [N.lxor 5 33; N.lxor 5 34; N.lxor 5 35].
Proof. vm_compute. reflexivity. Qed.
