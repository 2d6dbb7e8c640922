(** The base field of the secp256k1 curve, which is the scalar field of secq256k1: its
    modulus is prime, by a chain of Pocklington certificates checked by [Primality]. *)
From Coq Require Import List ZArith Lia.
From Verif Require Import Primality Field PField.
Import ListNotations.
Local Open Scope Z_scope.

(** The modulus of ark_bulletproofs_secq256k1's secp256k1 [Fq], 2^256 - 2^32 - 977. *)
Definition secp_q : Z := 115792089237316195423570985008687907853269984665640564039457584007908834671663.
Lemma secp_q_eq : secp_q = 2 ^ 256 - 2 ^ 32 - 977. Proof. reflexivity. Qed.

Definition secp_chain : list cert := [
  (53, []);
  (29, []);
  (7, []);
  (107590001, [(53, 1, 2); (29, 1, 2); (7, 1, 2)]);
  (20113, []);
  (1206781, [(20113, 1, 2)]);
  (7240687, [(1206781, 1, 2)]);
  (96557, []);
  (255515944373312847190720520512484175977, [(107590001, 1, 2); (7240687, 1, 2); (96557, 1, 2)]);
  (205115282021455665897114700593932402728804164701536103180137503955397371, [(255515944373312847190720520512484175977, 1, 2)]);
  (115792089237316195423570985008687907853269984665640564039457584007908834671663, [(205115282021455665897114700593932402728804164701536103180137503955397371, 1, 2)])].
Lemma secp_chain_ok : check_chain [] secp_chain = true.
Proof. vm_cast_no_check (eq_refl true). Qed.
Lemma secp_chain_prime n : existsb (Z.eqb n) (map fst secp_chain) = true -> Znumtheory.prime n.
Proof.
  intros H. apply existsb_exists in H. destruct H as [x [Hi Hx]]. apply Z.eqb_eq in Hx. subst x.
  apply in_map_iff in Hi. destruct Hi as [[m fs] [<- Hi]].
  exact (check_chain_sound secp_chain [] (fun q (H : In q []) => match H with end) secp_chain_ok m fs Hi).
Qed.
Lemma secp_q_prime : Znumtheory.prime secp_q. Proof. apply secp_chain_prime. vm_compute. reflexivity. Qed.
(** The base field of secp256k1. *)
Definition SecpQ : PField := ZpP secp_q secp_q_prime.
