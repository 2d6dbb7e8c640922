(** The relation a checker of an Anemoi-Jive trace would enforce. *)
From Coq Require Import List ZArith NArith Bool.
From Verif Require Import Base Field PField Power JiveModel.
Import ListNotations.
Local Open Scope F_scope.

Section Spec.
Context (F : PField).

(** The closed Flystel of degree [d]: from (x, y) to (u, v), low degree in all. *)
Definition flystel_rel (d : nat) (g ginv x y u v : F) : Prop :=
  fpow (y - v) d + g * (y * y) = x /\ fpow (y - v) d + g * (v * v) + ginv = u.

(** Both words of a round, from the state [s] to the recorded state [t]: the
    round keys are added, the matrix [[a b] [c e]] applied to x and, after a swap,
    to y, then the Flystel to each word. *)
Definition round_rel (d : nat) (J : jive_params F) (k s t : vec2 F * vec2 F) : Prop :=
  let '((sx0, sx1), (sy0, sy1)) := s in
  let '((kx0, kx1), (ky0, ky1)) := k in
  let '((a, b), (c, e)) := j_mds F J in
  let '((u0, u1), (v0, v1)) := t in
  flystel_rel d (j_gen F J) (j_gen_inv F J)
    (a * (sx0 + kx0) + b * (sx1 + kx1)) (a * (sy1 + ky1) + b * (sy0 + ky0)) u0 v0 /\
  flystel_rel d (j_gen F J) (j_gen_inv F J)
    (c * (sx0 + kx0) + e * (sx1 + kx1)) (c * (sy1 + ky1) + e * (sy0 + ky0)) u1 v1.
Fixpoint rounds_rel (d : nat) (J : jive_params F) (keys : list (vec2 F * vec2 F)) (s : vec2 F * vec2 F)
  (ts : list (vec2 F * vec2 F)) : Prop :=
  match keys, ts with
  | [], [] => True
  | k :: keys', t :: ts' => round_rel d J k s t /\ rounds_rel d J keys' t ts'
  | _, _ => False
  end.
(** A whole trace: the rounds, the last linear layer, and the output as the sum
    of the words before and after. *)
Definition trace_rel (d : nat) (J : jive_params F) (t : jive_trace F) : Prop :=
  rounds_rel d J (j_keys F J) (input F t) (intermediate F t) /\
  (let '((x0, x1), (y0, y1)) := last (intermediate F t) (input F t) in
   let '((a, b), (c, e)) := j_mds F J in
   final F t = ((a * x0 + b * x1, c * x0 + e * x1), (a * y1 + b * y0, c * y1 + e * y0))) /\
  (let '((x0, x1), (y0, y1)) := input F t in
   let '((u0, u1), (v0, v1)) := final F t in
   output F t = x0 + x1 + y0 + y1 + (u0 + u1 + v0 + v1)).
End Spec.
