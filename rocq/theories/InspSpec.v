(** Specification of the inspection: what an accepted note between a confidential and
    an anonymous record is meant to say, independently of the circuits. *)
From Coq Require Import List ZArith NArith.
From Verif Require Import Base Field PField RescueModel AfoldModel AfoldSpec SimModel SigmaSpec InspModel.
Import ListNotations.
Local Open Scope Z_scope.

(** The combination by [lambda] of the two verification equations
    [beta * datum + randomizer = response]. *)
Definition two_equations {K : PField} (x y a b s beta lambda : K) : Prop :=
  ((beta * x + a) + lambda * (beta * y + b) = s)%F.

(** An opening of the inspector's state: two data, two randomizers, and the hash
    randomizer. *)
Definition state (F : PField) : Type := Z * Z * Z * Z * F.
(** The state [o] answers the inspection commitment [comm], the responses [resp] and
    the challenges: the data are numbers of 64 and 240 bits, the commitment commits to
    them, and the combined equation holds. *)
Definition answers (F K : PField) (P : rescue_instance F) (comm : F) (resp : list K) (beta lambda : K) (o : state F) : Prop :=
  let '(X, Y, A, B, r) := o in
  0 <= X < 2 ^ 64 /\ 0 <= Y < 2 ^ 240 /\ 0 <= A < 2 ^ 253 /\ 0 <= B < 2 ^ 253 /\
  state_comm F P [X; Y] [A; B] r = Ok comm /\
  exists s, two_responses K resp lambda = Ok s /\
    two_equations (fofZ X) (fofZ Y) (fofZ A) (fofZ B) s beta lambda.
(** The anonymous side carries the same amount and type. *)
Definition inspected (F K : PField) (P : rescue_instance F) (amount ty comm : F) (resp : list K) (beta lambda : K) : Prop :=
  exists X Y A B r, answers F K P comm resp beta lambda (X, Y, A, B, r) /\ amount = fofZ X /\ ty = fofZ Y.

(** The hash inputs met when computing a state commitment. *)
Definition state_inputs (F : PField) (P : rescue_instance F) (data rhos : list Z) (r : F) : list (F * F * F * F) :=
  match resized 0%F (rcompress F (flat_map (fun x => limbs (sim_from F ristretto x)) (data ++ rhos)) ++ [r]) with
  | a :: b :: c :: d :: l => (a, b, c, d) :: absorbed (AxfrModel.hash F P) (AxfrModel.hash F P a b c d) l
  | _ => []
  end.

(** What the [k]-th responses under the two first challenges [beta true] and [beta false]
    reveal: a value and a blinding. *)
Definition reveals {K : PField} (beta : bool -> K) (resp : bool -> list (K * K)) (k : nat) : K * K :=
  let z i := nth k (resp i) (f0, f0) in
  (found (beta true) (beta false) (fst (z true)) (fst (z false)), found (beta true) (beta false) (snd (z true)) (snd (z false))).
(** They reveal the numbers [X] and [Y], with blindings that open the two commitments to them. *)
Definition reveal_opening {K : PField} {G : Mod K} (B H ca ct : G) (beta : bool -> K) (resp : bool -> list (K * K)) (X Y : Z) : Prop :=
  fst (reveals beta resp 0) = fofZ X /\ opens B H ca (fofZ X) (snd (reveals beta resp 0)) /\
  fst (reveals beta resp 1) = fofZ Y /\ opens B H ct (fofZ Y) (snd (reveals beta resp 1)).
