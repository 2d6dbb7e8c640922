(** The bucketed multi-exponentiation of BLS12-381 G1: algebra/src/bls12_381.rs 450-654. *)
From Coq Require Import List ZArith Bool Lia.
From Verif Require Import Base Field.
Import ListNotations.

Section Bucket.
(** The base field of the curve. *)
Context {K : Field}.
Local Open Scope F_scope.

(** The arkworks types used by the code (ark-ec, an external crate): [G1Affine] and
    [G1Projective] in Jacobian coordinates; z = 0 is the point at infinity. *)
Record affine := mkAff { ax : K; ay : K; ainf : bool }.
Record jac := mkJac { jx : K; jy : K; jz : K }.
Definition jzero : jac := mkJac 1 1 0.
(** [double_in_place] of ark-ec for a curve with a = 0 (formulas dbl-2009-l). *)
Definition jdouble (p : jac) : jac :=
  if feqb (jz p) 0 then p else
  let A := jx p * jx p in let B := jy p * jy p in let C := B * B in
  let D := (1 + 1) * ((jx p + B) * (jx p + B) - A - C) in let E := (1 + 1 + 1) * A in
  let x3 := E * E - (1 + 1) * D in
  mkJac x3 (E * (D - x3) - (1 + 1) * (1 + 1) * (1 + 1) * C) ((1 + 1) * (jz p * jy p)).
(** [add_assign_mixed] of ark-ec (formulas madd-2007-bl). *)
Definition jmixed (p : jac) (q : affine) : jac :=
  if ainf q then p else
  if feqb (jz p) 0 then mkJac (ax q) (ay q) 1 else
  let zz := jz p * jz p in let u2 := ax q * zz in let s2 := ay q * jz p * zz in
  if feqb (jx p) u2 && feqb (jy p) s2 then jdouble p else
  let h := u2 - jx p in let hh := h * h in let i := (1 + 1) * (1 + 1) * hh in let j := h * i in
  let r := (1 + 1) * (s2 - jy p) in let v := jx p * i in
  let x3 := r * r - j - (1 + 1) * v in
  mkJac x3 (r * (v - x3) - (1 + 1) * (jy p * j)) ((jz p + h) * (jz p + h) - zz - hh).
(** [add_assign] of ark-ec (formulas add-2007-bl). *)
Definition jadd (p q : jac) : jac :=
  if feqb (jz p) 0 then q else if feqb (jz q) 0 then p else
  let z1z1 := jz p * jz p in let z2z2 := jz q * jz q in
  let u1 := jx p * z2z2 in let u2 := jx q * z1z1 in
  let s1 := jy p * jz q * z2z2 in let s2 := jy q * jz p * z1z1 in
  if feqb u1 u2 && feqb s1 s2 then jdouble p else
  let h := u2 - u1 in let i := ((1 + 1) * h) * ((1 + 1) * h) in let j := h * i in
  let r := (1 + 1) * (s2 - s1) in let v := u1 * i in
  let x3 := r * r - j - (1 + 1) * v in
  mkJac x3 (r * (v - x3) - (1 + 1) * (s1 * j)) (((jz p + jz q) * (jz p + jz q) - z1z1 - z2z2) * h).

(** ** [reduce_buckets] (bls12_381.rs 566-654) *)
Definition THRESHOLD : nat := 16.
(** [ark_ff::batch_inversion], elementwise: zero entries are left alone. *)
Definition inv0 (x : K) : K := if feqb x 0 then 0 else finv x.
(** bls12_381.rs 628-645: the affine sum of two points, never checked for equal or infinite points. *)
Definition affine_add (p q : affine) : affine :=
  let m := (ay q - ay p) * inv0 (ax q - ax p) in
  let x3 := m * m - ax p - ax q in
  mkAff x3 (m * (ax p - x3) - ay p) false.
Fixpoint chunks2 (l : list affine) : list affine :=
  match l with p :: q :: l' => affine_add p q :: chunks2 l' | _ => [] end.
(** bls12_381.rs 617-652: neighbours are added; in a bucket of odd length the first point is kept. *)
Definition halve (l : list affine) : list affine :=
  if Nat.odd (length l) then firstn 1 l ++ chunks2 (skipn 1 l) else chunks2 l.
(** bls12_381.rs 577-602: a bucket of at most 16 points is added up and emptied. *)
Definition flush (st : list affine * jac) : list affine * jac :=
  if (THRESHOLD <? length (fst st))%nat then st
  else if (length (fst st) =? 0)%nat then st
  else ([], fold_left jmixed (fst st) jzero).
Definition pairup (st : list affine * jac) : list affine * jac :=
  if (THRESHOLD <? length (fst st))%nat then (halve (fst st), snd st) else st.
(** bls12_381.rs 571-651: the loop; the fuel stands for [loop] (the buckets shrink in every round). *)
Fixpoint reduce_loop (fuel : nat) (st : list (list affine * jac)) : res (list jac) :=
  match fuel with
  | O => Panic
  | S fuel' =>
    if forallb (fun s => negb (THRESHOLD <? length (fst s))%nat) st then Ok (map (fun s => snd (flush s)) st)
    else reduce_loop fuel' (map (fun s => pairup (flush s)) st)
  end.
Definition reduce_buckets (buckets : list (list affine)) : res (list jac) :=
  reduce_loop (S (fold_right (fun b n => Nat.max (length b) n) O buckets)) (map (fun b => (b, jzero)) buckets).

(** ** [msm_unsafe] (bls12_381.rs 454-563) *)
(** bls12_381.rs 454-457; [ark_std::log2] rounds up. *)
Definition ln_without_floats (a : nat) : nat := (Nat.log2_up a * 69 / 100)%nat.
Definition window_size (nonzero : nat) : nat := if (nonzero <? 512)%nat then 3 else (ln_without_floats nonzero - 3)%nat.
Definition NUM_BITS : nat := 255.
(** [buckets[i].push(base)] *)
Fixpoint push {T} (l : list (list T)) (i : nat) (b : T) : list (list T) :=
  match l, i with
  | [], _ => []
  | x :: l', O => (x ++ [b]) :: l'
  | x :: l', S i' => x :: push l' i' b
  end.
(** bls12_381.rs 491-519: a base goes to the bucket of its digit; unit scalars go to bucket 0 of the first window. *)
Definition place {T} (c w_start : nat) (buckets : list (list T)) (sb : Z * T) : list (list T) :=
  let (s, b) := sb in
  if Z.eqb s 1 then (if (w_start =? 0)%nat then push buckets 0 b else buckets)
  else
    let d := (Z.shiftr s (Z.of_nat w_start) mod 2 ^ 64 mod Z.shiftl 1 (Z.of_nat c))%Z in
    if Z.eqb d 0 then buckets else push buckets (Z.to_nat d) b.
(** bls12_381.rs 521-546: [buckets[0] + sum_i i buckets[i]] by running sums from the last bucket. *)
Definition running_sum (bs : list jac) : res jac :=
  match bs with
  | [] => Panic
  | b0 :: bs' => Ok (snd (fold_left (fun a b => let r := jadd (fst a) b in (r, jadd (snd a) r)) (rev bs') (jzero, b0)))
  end.
Definition window_sum (c : nat) (sbs : list (Z * affine)) (w_start : nat) : res jac :=
  bind (reduce_buckets (fold_left (place c w_start) sbs (repeat [] (2 ^ c)))) running_sum.
(** [(0..num_bits).step_by(c)] *)
Definition window_starts (c : nat) : list nat := map (fun i => (i * c)%nat) (seq 0 ((NUM_BITS + c - 1) / c)).
(** bls12_381.rs 460-563. The windows are computed in parallel in the code; they share no state. *)
Definition msm_unsafe (bases : list affine) (scalars : list Z) : res jac :=
  let sbs := filter (fun sb => negb (Z.eqb (fst sb) 0)) (combine scalars bases) in
  let c := window_size (length sbs) in
  bind (Base.mapM (window_sum c sbs) (window_starts c)) (fun sums =>
  match sums with
  | [] => Panic
  | lowest :: rest => Ok (jadd lowest (fold_left (fun total s => Nat.iter c jdouble (jadd total s)) (rev rest) jzero))
  end).
End Bucket.
Arguments affine K : clear implicits. Arguments jac K : clear implicits.
