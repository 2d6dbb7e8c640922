(** Multi-exponentiation: algebra/src/traits.rs (the default of the [Group] trait). *)
From Coq Require Import List ZArith Bool Lia.
From Verif Require Import Base Field PField.
Import ListNotations.
Local Open Scope Z_scope.

(** A scalar as [n] little-endian 64-bit limbs: [Scalar::get_little_endian_u64]
    (bls12_381.rs 289-296, ristretto.rs 234-238, jubjub.rs 242-249: four limbs;
    secq256k1.rs 229-237: five).  The one of secp256k1.rs 253-260 always panics: see
    ScalarModel; its group does not use this algorithm. *)
Fixpoint limbs (n : nat) (z : Z) : list Z :=
  match n with O => [] | S n' => (z mod 2 ^ 64) :: limbs n' (z / 2 ^ 64) end.
(** The cast [as i8]: the low byte, read in two's complement. *)
Definition to_i8 (z : Z) : Z := (z + 128) mod 256 - 128.

(** traits.rs 214-242: the loop of [scalar_to_radix_2_power_w]. The fuel stands for the
    unbounded [loop]; [radix_loop_fuel] in MsmProofs shows that it is never exhausted. *)
Fixpoint radix_loop (fuel w : nat) (ls : list Z) (i : nat) (carry : Z) : list Z :=
  match fuel with
  | O => []
  | S fuel' =>
    let off := (i * w)%nat in let k := (off / 64)%nat in let b := (off mod 64)%nat in
    if (length ls <=? k)%nat then [to_i8 carry]
    else
      let is_last := (k =? length ls - 1)%nat in
      let lo := nth k ls 0 in
      let buf := if (b <? 64 - w)%nat || is_last then Z.shiftr lo (Z.of_nat b)
                 else Z.lor (Z.shiftr lo (Z.of_nat b)) (Z.shiftl (nth (1 + k) ls 0) (Z.of_nat (64 - b)) mod 2 ^ 64) in
      let radix := Z.shiftl 1 (Z.of_nat w) in
      let coef := carry + Z.land buf (radix - 1) in
      let carry' := Z.shiftr (coef + radix / 2) (Z.of_nat w) in
      to_i8 (coef - Z.shiftl carry' (Z.of_nat w)) :: radix_loop fuel' w ls (S i) carry'
  end.
(** traits.rs 244-247: trailing zero digits are dropped, but one digit is kept. *)
Fixpoint trim_rev (r : list Z) : list Z :=
  match r with
  | d :: ((_ :: _) as r') => if d =? 0 then trim_rev r' else r
  | _ => r
  end.
Definition trim (l : list Z) : list Z := rev (trim_rev (rev l)).
(** traits.rs 201-249 [scalar_to_radix_2_power_w], for a scalar given by its limbs. *)
Definition scalar_to_radix_2_power_w (ls : list Z) (w : nat) : res (list Z) :=
  if negb (w <=? 7)%nat then Panic
  else if forallb (Z.eqb 0) ls then Ok [0]
  else Ok (trim (radix_loop (S (64 * length ls)) w ls 0 0)).

Section Group.
Context {F : PField} {M : Mod F}.
Local Open Scope M_scope.
(** The number of limbs of the scalar type. *)
Context (nl : nat).

(** traits.rs, multi-exponentiation: [buckets[i] = f(buckets[i])] with a bounds check. *)
Fixpoint update (l : list M) (i : nat) (f : M -> M) : res (list M) :=
  match l, i with
  | [], _ => Panic
  | x :: l', O => Ok (f x :: l')
  | x :: l', S i' => rmap (cons x) (update l' i' f)
  end.
(** traits.rs 288-301: one digit goes to its bucket. *)
Definition put (index : nat) (bs : list M) (de : list Z * M) : res (list M) :=
  match nth_error (fst de) index with
  | None => Ok bs
  | Some d =>
    if Z.ltb 0 d then update bs (Z.to_nat (d - 1)) (fun b => b + snd de)
    else if Z.ltb d 0 then update bs (Z.to_nat (- (d + 1))) (fun b => b - snd de)
    else Ok bs
  end.
Fixpoint puts (index : nat) (des : list (list Z * M)) (bs : list M) : res (list M) :=
  match des with [] => Ok bs | de :: des' => bind (put index bs de) (puts index des') end.
(** traits.rs 302-307: [sum_i (i + 1) buckets[i]] by running sums from the last bucket. *)
Definition bucket_sum (bs : list M) : res M :=
  match rev bs with
  | [] => Panic
  | b :: bs' => Ok (snd (fold_left (fun a x => let i := fst a + x in (i, snd a + i)) bs' (b, b)))
  end.
(** traits.rs 283-309: the column of weight [2^(w index)]. *)
Definition column (w : nat) (des : list (list Z * M)) (index : nat) : res M :=
  bind (puts index des (repeat m0 (2 ^ w / 2))) bucket_sum.
Definition window (size : nat) : nat := if (size <? 500)%nat then 6 else if (size <? 800)%nat then 7 else 8.
(** traits.rs 252-316 [pippenger]. The column iterator is lazy in the code and a list here. *)
Definition pippenger (scalars : list F) (elems : list M) : res M :=
  match scalars with
  | [] => Err
  | _ =>
    let w := window (length scalars) in
    bind (Base.mapM (fun s => scalar_to_radix_2_power_w (limbs nl (toZ s)) w) scalars) (fun ds =>
    let count := fold_left (fun c d => if (c <? length d)%nat then length d else c) ds O in
    bind (Base.mapM (column w (combine ds elems)) (rev (seq 0 count))) (fun cols =>
    match cols with
    | [] => Panic
    | hi :: cols' => Ok (fold_left (fun total p => fofZ (2 ^ Z.of_nat w) *: total + p) cols' hi)
    end))
  end.
(** traits.rs 167-173 [multi_exp]; [unwrap] of an error panics. *)
Definition multi_exp (scalars : list F) (points : list M) : res M :=
  match scalars with
  | [] => Ok m0
  | _ => match pippenger scalars points with Err => Panic | r => r end
  end.
End Group.
