(** Model of the comparison and hashing of transfer keys (api/src/xfr/sig.rs 123-147 and
    309-333).  A hasher is the sequence of byte strings written to it. *)
From Coq Require Import List NArith Bool.
From Verif Require Import Base UtilsModel KeyModel.
Import ListNotations.
Local Open Scope N_scope.

(** [Ord for Vec<u8>] of the standard library: the first difference decides, and a
    proper prefix is smaller. *)
Fixpoint bytes_cmp (a b : bytes) : comparison :=
  match a, b with
  | [], [] => Eq
  | [], _ :: _ => Lt
  | _ :: _, [] => Gt
  | x :: a', y :: b' => match N.compare x y with Eq => bytes_cmp a' b' | c => c end
  end.

Section Order.
Context (X : schemes).
(** sig.rs 125-129 [PartialEq for XfrPublicKey]. *)
Definition pk_eq (j k : pubkey X) : bool := bytes_eqb (pk_to_bytes X j) (pk_to_bytes X k).
(** sig.rs 131-135 [Ord for XfrPublicKey]. *)
Definition pk_cmp (j k : pubkey X) : comparison := bytes_cmp (pk_to_bytes X j) (pk_to_bytes X k).
(** sig.rs 137-141 [PartialOrd for XfrPublicKey]. *)
Definition pk_partial_cmp (j k : pubkey X) : option comparison := Some (pk_cmp j k).
(** sig.rs 143-147 [Hash for XfrPublicKey]. *)
Definition pk_hash (k : pubkey X) (state : list bytes) : list bytes := state ++ [pk_to_bytes X k].
(** sig.rs 311-315 [PartialEq for XfrSecretKey]. *)
Definition sk_eq (j k : seckey X) : bool := bytes_eqb (sk_to_bytes X j) (sk_to_bytes X k).
(** sig.rs 317-321 [Ord for XfrSecretKey]. *)
Definition sk_cmp (j k : seckey X) : comparison := bytes_cmp (sk_to_bytes X j) (sk_to_bytes X k).
(** sig.rs 323-327 [PartialOrd for XfrSecretKey]. *)
Definition sk_partial_cmp (j k : seckey X) : option comparison := Some (sk_cmp j k).
(** sig.rs 329-333 [Hash for XfrSecretKey]. *)
Definition sk_hash (k : seckey X) (state : list bytes) : list bytes := state ++ [sk_to_bytes X k].
End Order.
