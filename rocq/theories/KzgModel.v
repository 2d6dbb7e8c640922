(** Model of plonk/src/poly_commit/kzg_poly_com.rs and plonk/src/poly_commit/pcs.rs:
    the KZG polynomial commitment scheme and its batched openings.

    Simplifications: the groups of the pairing are modules over the scalar field
    ([Mod F]); the pairing is an argument [e] and its bilinearity a hypothesis of the
    theorems; the target group is written additively; [multi_exp_unsafe] is the sum
    of the products of the zipped vectors (the algorithm behind it is MsmModel's
    subject); the transcript is the list of appended messages and a challenge is an
    arbitrary function of that list. *)
From Coq Require Import List Arith NArith Bool.
From Verif Require Import Base Field PolyModel.
Import ListNotations.
Local Open Scope F_scope.

Section Kzg.
Context {F : Field} {G1 G2 GT : Mod F}.
Context (e : G1 -> G2 -> GT) (base1 : G1) (base2 : G2).
Notation poly := (list F).

(** kzg_poly_com.rs 115-120 [KZGCommitmentScheme]. *)
Record kzg := { pp1 : list G1; pp2 : list G2 }.

(** kzg_poly_com.rs 126-147 [new]: [n] elements starting from [g]; then the scheme for the
    secret [s] (drawn from the generator in the code, an argument here). *)
Fixpoint g1_powers (n : nat) (g : G1) (s : F) : list G1 :=
  match n with O => [] | S n' => g :: g1_powers n' (s *: g)%M s end.
Definition setup (max_degree : nat) (s : F) : kzg :=
  {| pp1 := g1_powers (S max_degree) base1 s; pp2 := [base2; (s *: base2)%M] |}.

(** kzg_poly_com.rs 211-213 [max_degree]. *)
Definition max_degree (k : kzg) : nat := length (pp1 k) - 1.

(** [multi_exp_unsafe] on zipped vectors (see the header). *)
Definition msm (cs : list F) (ps : list G1) : G1 :=
  msum (map (fun cp => (fst cp *: snd cp)%M) (combine cs ps)).
(** kzg_poly_com.rs 215-235 [commit]. *)
Definition commit (k : kzg) (p : poly) : res G1 :=
  if Nat.ltb (length (pp1 k)) (degree p + 1) then Err
  else Ok (msm p (firstn (degree p + 1) (pp1 k))).

(** kzg_poly_com.rs 241-255 [apply_blind_factors]; an index out of range panics. *)
Fixpoint apply_blinds (k : kzg) (z i : nat) (blinds : list F) (c : G1) : res G1 :=
  match blinds with
  | [] => Ok c
  | b :: bs =>
      match nth_error (pp1 k) i, nth_error (pp1 k) (z + i) with
      | Some p, Some q => apply_blinds k z (S i) bs (c + b *: p + fopp b *: q)%M
      | _, _ => Panic
      end
  end.
Definition apply_blind_factors (k : kzg) (c : G1) (blinds : list F) (zeroing_degree : nat) : res G1 :=
  apply_blinds k zeroing_degree 0 blinds c.

(** [Result::unwrap]. *)
Definition unwrap {A} (r : res A) : res A := match r with Err => Panic | x => x end.

(** kzg_poly_com.rs 257-291 [prove] (the transcript is not used). *)
Definition prove (k : kzg) (p : poly) (x : F) (maxd : nat) : res G1 :=
  if Nat.ltb maxd (degree p) then Err else
  bind (div_rem (sub p (from_coefs [eval p x])) (from_coefs [fopp x; 1])) (fun qr =>
  bind (is_zero (snd qr)) (fun z =>
  if z then unwrap (commit k (fst qr)) else Err)).

(** kzg_poly_com.rs 293-322 [verify]; indexing [0] and [1] panics on shorter parameters. *)
Definition verify (k : kzg) (c : G1) (x v : F) (proof : G1) : res unit :=
  match pp1 k, pp2 k with
  | g :: _, h0 :: h1 :: _ =>
      let left := if feqb v 0 then e c h0 else e (c - v *: g)%M h0 in
      let right := e proof (h1 - x *: h0)%M in
      if meqb left right then Ok tt else Err
  | _, _ => Panic
  end.

(** kzg_poly_com.rs 324-373 [batch_verify_diff_points]: one round per further proof. *)
Fixpoint diff_loop (cs : list G1) (xs vs : list F) (ws : list G1) (u cur : F)
    (acc : G1 * G1 * F * G1) : G1 * G1 * F * G1 :=
  match cs, xs, vs, ws with
  | c :: cs', x :: xs', v :: vs', w :: ws' =>
      let '(l, r, rv, rc) := acc in
      let nc := (cur *: w)%M in
      diff_loop cs' xs' vs' ws' u (cur * u)
        ((l + nc)%M, (r + x *: nc)%M, rv + v * cur, (rc + cur *: c)%M)
  | _, _, _, _ => acc
  end.
Definition batch_verify_diff_points (k : kzg) (cs : list G1) (xs vs : list F) (ws : list G1) (u : F) : res unit :=
  if negb (Nat.eqb (length ws) (length xs) && Nat.eqb (length ws) (length vs)
           && Nat.eqb (length ws) (length cs)) then Panic else
  match pp1 k, pp2 k, cs, xs, vs, ws with
  | g :: _, h0 :: h1 :: _, c :: cs', x :: xs', v :: vs', w :: ws' =>
      let '(l, r, rv, rc) := diff_loop cs' xs' vs' ws' u u (w, (x *: w)%M, v, c) in
      if meqb (e l h1) (e (r - rv *: g + rc)%M h0) then Ok tt else Err
  | _, _, _, _, _, _ => Panic
  end.

(** kzg_poly_com.rs 375-383 [shrink_to_verifier_only]. *)
Definition shrink (k : kzg) : res kzg :=
  match pp1 k, pp2 k with
  | g :: _, h0 :: h1 :: _ => Ok {| pp1 := [g]; pp2 := [h0; h1] |}
  | _, _ => Panic
  end.

(** Transcript messages; poly_commit/transcript.rs 18-27 and plonk/transcript.rs 8-30.
    Domain separators are numbered, [TDrawn] records that a challenge with that
    label number was drawn (drawing changes the state of a Merlin transcript). *)
Inductive tmsg :=
| TDomain (n : nat)
| TSize (n : nat)
| TFieldSize
| TComm (c : G1)
| TElem (x : F)
| TDrawn (label : nat).
Notation transcript := (list tmsg).
(** transcript.rs 26-30 [get_challenge_field_elem]: any function of what was appended. *)
Context (draw : transcript -> F).
(** Drawing with label [n]: the value and the transcript afterwards. *)
Definition challenge (t : transcript) (n : nat) : F * transcript :=
  (draw (t ++ [TDrawn n]), t ++ [TDrawn n]).

(** pcs.rs 196-214 [init_pcs_batch_eval_transcript], [transcript_append_params]. *)
Definition init_batch (t : transcript) (maxd : nat) (x : F) : transcript :=
  t ++ [TDomain 1; TFieldSize; TSize maxd; TElem x].

(** pcs.rs 101-134 [batch_prove]: the loop of lines 119-126, then the quotient. *)
Fixpoint batch_loop (ps : list poly) (x alpha mult : F) (h : poly) : poly :=
  match ps with
  | [] => h
  | p :: ps' => batch_loop ps' x alpha (mult * alpha) (add h (mul_scalar (sub p (from_coefs [eval p x])) mult))
  end.
Definition batch_prove (k : kzg) (t : transcript) (ps : list poly) (x : F) (maxd : nat) : res (G1 * transcript) :=
  match ps with
  | [] => Panic
  | _ =>
      let (alpha, t') := challenge (init_batch t maxd x) 0 in
      bind (div_rem (batch_loop ps x alpha 1 pzero) (from_zeroes [x])) (fun qr =>
      bind (is_zero (snd qr)) (fun z =>
      if z then bind (commit k (fst qr)) (fun c => Ok (c, t')) else Err))
  end.

(** pcs.rs 137-157 [batch]: the loop over the zipped evaluations and commitments. *)
Fixpoint batch_sum (cs : list G1) (vs : list F) (alpha mult : F) (c : G1) (v : F) : G1 * F :=
  match vs, cs with
  | v0 :: vs', c0 :: cs' => batch_sum cs' vs' alpha (mult * alpha) (c + mult *: c0)%M (v + v0 * mult)
  | _, _ => (c, v)
  end.
Definition batch (t : transcript) (cs : list G1) (maxd : nat) (x : F) (vs : list F) : G1 * F * transcript :=
  let (alpha, t') := challenge (init_batch t maxd x) 0 in
  (batch_sum cs vs alpha 1 m0 0, t').
(** pcs.rs 160-181 [batch_verify]. *)
Definition batch_verify (k : kzg) (t : transcript) (cs : list G1) (maxd : nat) (x : F) (vs : list F) (proof : G1) : res unit :=
  let '(c, v, _) := batch t cs maxd x vs in verify k c x v proof.
End Kzg.
Arguments kzg {F} G1 G2.
Arguments tmsg {F} G1.
