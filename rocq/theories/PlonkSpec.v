(** What a PLONK proof should mean, independently of the protocol. *)
From Coq Require Import List Arith NArith Bool.
From Verif Require Import Base Field PField TurboModel TurboSpec PolyModel PlonkModel.
Import ListNotations.
Local Open Scope F_scope.

Section Spec.
Context {F : PField}.
(** The equation of one gate, with the online value [pi] of its row (0 if it has none). *)
Definition gate_holds (w : nat -> F) (pi : F) (g : gate F) : Prop :=
  q1 g * w (w1 g) + q2 g * w (w2 g) + q3 g * w (w3 g) + q4 g * w (w4 g)
  + qm1 g * (w (w1 g) * w (w2 g)) + qm2 g * (w (w3 g) * w (w4 g))
  + qecc g * w (w1 g) * w (w2 g) * w (w3 g) * w (w4 g) * w (wo g)
  + qh1 g * fpow (w (w1 g)) 5 + qh2 g * fpow (w (w2 g)) 5
  + qh3 g * fpow (w (w3 g)) 5 + qh4 g * fpow (w (w4 g)) 5
  + (qc g + pi) = qo g * w (wo g).
(** All gates and boolean constraints hold; [pi i] is the online value of row [i]. *)
Definition circuit_holds (gs : list (gate F)) (w : nat -> F) (pi : nat -> F) : Prop :=
  forall i g, nth_error gs i = Some g -> gate_holds w (pi i) g /\ gate_bool w g.
(** The wire of column [j] of a gate. *)
Definition wire_of (j : nat) (g : gate F) : nat :=
  match j with 0 => w1 g | 1 => w2 g | 2 => w3 g | 3 => w4 g | _ => wo g end.

(** The field element that names position [p] (column [p / n], row [p mod n]). *)
Definition name_of (n : nat) (om : F) (ks : list F) (p : nat) : F := nth (p / n) ks 0 * fpow om (p mod n).

(** The verifier's equation for true evaluations: with the witness polynomials [ws], the
    permutation product [z] and the quotient chunks [ts] evaluated honestly at the point
    [zeta ch], the value the verifier computes for the linearised combination is the value of
    the combination itself. *)
Definition equation_holds {G1 : Mod F} (pk : pparams G1) (n : nat) (ws : list (list F)) (z : list F) (ts : list (list F)) (pi : list F) (ch : chals) : Prop :=
  let x := zeta ch in
  let we := map (fun p => eval p x) ws in
  let se := map (fun p => eval p x) (firstn 4 (s_polys pk)) in
  let zw := eval z (vk_root (pk_vk pk) * x) in
  exists zh l1 r, first_lagrange n x = Ok (zh, l1) /\
    r_poly pk z we se zw ch ts l1 zh (n + 2) = Ok r /\
    r_eval_zeta ch (mkPf [] [] (m0 : G1) we zw se m0 m0) (eval pi x) l1 = Ok (eval r x).

(** More than [k] different elements satisfy [P]. *)
Definition more_than (k : nat) (P : F -> Prop) : Prop := exists l, NoDup l /\ (k < length l)%nat /\ forall x, In x l -> P x.
End Spec.
