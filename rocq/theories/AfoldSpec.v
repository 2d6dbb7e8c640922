(** Specification of address folding: what an accepted folding proof is meant to say
    about the two keys of a transfer, independently of the circuit. *)
From Coq Require Import List ZArith NArith.
From Verif Require Import Base Field PField UtilsModel RescueModel FoldModel AxfrModel AxfrSpec AfoldModel.
Import ListNotations.
Local Open Scope Z_scope.

(** The number packed in the three scalars of a public key, and in the two scalars
    of a secret key. *)
Definition pk_number {F : PField} (p : F * F * F) : Z := let '(a, b, c) := p in toZ a + 2 ^ 248 * (toZ b + 2 ^ 248 * toZ c).
Definition sk_number {F : PField} (s : F * F) : Z := toZ (fst s) + 2 ^ 248 * toZ (snd s).
Definition pk_packed {F : PField} (p : F * F * F) : Prop := let '(a, b, c) := p in toZ a < 2 ^ 248 /\ toZ b < 2 ^ 248 /\ toZ c < 2 ^ 16.
Definition sk_packed {F : PField} (s : F * F) : Prop := toZ (fst s) < 2 ^ 248 /\ toZ (snd s) < 2 ^ 8.
(** The order of the curve of the keys. *)
Definition key_order : Z := Z.of_N (le_value secp256k1_order_bytes).

(** The combination, by powers of [lambda], of the three verification equations
    [beta * datum + randomizer = response]. *)
Definition combined_equation {K : PField} (x y s rx ry rs resp beta lambda : K) : Prop :=
  ((beta * x + rx) + lambda * (beta * y + ry) + lambda * lambda * (beta * s + rs) = resp)%F.

(** The statement proved by the gadget for keys [p], [s], inspection commitment
    [comm], responses [resp] and challenges [beta], [lambda]: the public key packs
    two 256-bit numbers and the secret key one below the order; these three numbers,
    with three randomizers, are what the commitment commits to; and they satisfy the
    combined equation. *)
Definition folds (F K : PField) (P : rescue_instance F) (p : F * F * F) (s : F * F) (comm : F) (resp : list K) (beta lambda : K) : Prop :=
  pk_packed p /\ sk_packed s /\
  exists X Y RX RY RS r,
    Forall (fun z => 0 <= z < 2 ^ 256) [X; Y; RX; RY; RS] /\
    pk_number p = X + 2 ^ 256 * Y /\ sk_number s < key_order /\
    inspection_comm F P [X; Y; sk_number s] [RX; RY; RS] r = Ok comm /\
    exists z, combined_response K resp lambda = Ok z /\
      combined_equation (fofZ X) (fofZ Y) (fofZ (sk_number s)) (fofZ RX) (fofZ RY) (fofZ RS) z beta lambda.

(** The hash inputs met when computing a commitment. *)
Fixpoint absorbed {F : PField} (H : F -> F -> F -> F -> F) (h : F) (l : list F) : list (F * F * F * F) :=
  match l with a :: b :: c :: l' => (h, a, b, c) :: absorbed H (H h a b c) l' | _ => [] end.
Definition comm_inputs (F : PField) (P : rescue_instance F) (data rhos : list Z) (r : F) : list (F * F * F * F) :=
  match resized 0%F (compress F (flat_map (fun x => SimModel.limbs (SimModel.sim_from F SimModel.secq256k1 x)) (data ++ rhos)) ++ [r]) with
  | a :: b :: c :: d :: l => (a, b, c, d) :: absorbed (hash F P) (hash F P a b c d) l
  | _ => []
  end.
