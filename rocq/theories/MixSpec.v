(** What balancing means for anonymous transfers, independently of the code. *)
From Coq Require Import List NArith ZArith Bool.
From Verif Require Import Base Field PField XfrSpec.
Import ListNotations.

(** Integer totals: [total t l] of XfrSpec on (amount, type) pairs.  A transfer
    balances when every type is conserved, the fee leaving in type [ft]. *)
Definition balanced (ft : N) (ins outs : list (N * N)) (fee : N) : Prop :=
  forall t, (total t ins = total t outs + (if N.eqb t ft then Z.of_N fee else 0))%Z.

Section Field.
Context (F : PField).
(** Total, over the unbounded integers, of the amounts of type [t] in a list of
    (type, amount) pairs of field elements. *)
Fixpoint ftotal (t : F) (l : list (F * F)) : Z :=
  match l with
  | [] => 0%Z
  | (t', v) :: l' => ((if f_dec t t' then toZ v else 0) + ftotal t l')%Z
  end.
(** The same in the field. *)
Fixpoint fsum_of (t : F) (l : list (F * F)) : F :=
  match l with
  | [] => f0
  | (t', v) :: l' => fadd (if f_dec t t' then v else f0) (fsum_of t l')
  end.
Definition has_type (t : F) (l : list (F * F)) : Prop := In t (map fst l).
(** Values of record variables under an assignment. *)
Definition vals (w : nat -> F) (l : list (nat * nat)) : list (F * F) :=
  map (fun r => (w (fst r), w (snd r))) l.
End Field.
Arguments ftotal {F}. Arguments fsum_of {F}. Arguments has_type {F}. Arguments vals {F}.
