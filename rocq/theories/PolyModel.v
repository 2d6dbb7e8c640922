(** Model of plonk/src/poly_commit/field_polynomial.rs: polynomials as coefficient
    vectors (low order first), division, FFT.

    Simplifications: [usize] is [nat]; a polynomial is its [coefs] vector (lines 6-10);
    [_assign] methods return the new value; the field's big-integer size and
    generator are the arguments [q] and [g]. *)
From Coq Require Import List Arith NArith Bool.
From Verif Require Import Base Field.
Import ListNotations.
Local Open Scope F_scope.

Section Poly.
Context {F : Field}.
Notation poly := (list F).

(** field_polynomial.rs 139-144 [trim_coefs]: pop trailing zeroes while more than one is left. *)
Fixpoint pop_zeroes (r : poly) : poly :=
  match r with
  | x :: (_ :: _) as r' => if feqb x 0 then pop_zeroes r' else r
  | _ => r
  end.
Definition trim (p : poly) : poly := rev (pop_zeroes (rev p)).
(** field_polynomial.rs 77-81 [from_coefs]; 35-37 [zero]; 51-53 [one]. *)
Definition from_coefs (l : list F) : poly := trim l.
Definition pzero : poly := from_coefs [0].
Definition pone : poly := from_coefs [1].
(** field_polynomial.rs 157-163 [degree]; 176-178 [is_zero] ([coefs[0]] panics on an empty vector). *)
Definition degree (p : poly) : nat := length p - 1.
Definition is_zero (p : poly) : res bool :=
  if Nat.eqb (degree p) 0 then match p with [] => Panic | a :: _ => Ok (feqb a 0) end else Ok false.
(** field_polynomial.rs 181-192 [eval]. *)
Definition eval (p : poly) (x : F) : F :=
  fst (fold_left (fun rv c => (fst rv + snd rv * c, snd rv * x)) p (0, 1)).
(** field_polynomial.rs 195-206 [add_assign]; 226-230 [add]. *)
Definition add (a b : poly) : poly :=
  trim (map (fun xy => fst xy + snd xy) (combine a b) ++ skipn (length b) a
        ++ (if Nat.ltb (length a) (length b) then skipn (length a) b else [])).
(** field_polynomial.rs 261-272 [sub_assign]; 290-294 [sub]. *)
Definition sub (a b : poly) : poly :=
  trim (map (fun xy => fst xy - snd xy) (combine a b) ++ skipn (length b) a
        ++ (if Nat.ltb (length a) (length b) then map fopp (skipn (length a) b) else [])).
(** field_polynomial.rs 381-386 [mul_scalar_assign]; 402-406 [mul_scalar]. *)
Definition mul_scalar (p : poly) (s : F) : poly := trim (map (fun c => c * s) p).
(** field_polynomial.rs 310-313 [neg_assign]; 329-333 [neg]. *)
Definition neg (p : poly) : poly := mul_scalar p (fopp 1).
(** field_polynomial.rs 424-431 [mul_var_assign]; 448-452 [mul_var]. *)
Fixpoint mul_var_loop (r : F) (s : F) (p : poly) : poly :=
  match p with [] => [] | c :: p' => c * r :: mul_var_loop (r * s) s p' end.
Definition mul_var (p : poly) (s : F) : poly := trim (mul_var_loop 1 s p).
(** field_polynomial.rs 356-362 [add_coef_assign]: [while degree() < order push zero], then the
    coefficient is increased; on an empty vector with order 0 indexing panics. *)
Fixpoint push_zeroes (fuel : nat) (order : nat) (p : poly) : poly :=
  match fuel with
  | O => p
  | S f => if Nat.ltb (degree p) order then push_zeroes f order (p ++ [0]) else p
  end.
Fixpoint add_at (i : nat) (c : F) (p : poly) : poly :=
  match p, i with [], _ => [] | a :: p', O => a + c :: p' | a :: p', S i' => a :: add_at i' c p' end.
Definition add_coef (p : poly) (c : F) (order : nat) : res poly :=
  let p1 := push_zeroes (S (S order)) order p in
  if Nat.ltb order (length p1) then Ok (trim (add_at order c p1)) else Panic.
(** field_polynomial.rs 107-117 [from_zeroes_ref]; 101-104 [from_zeroes]. *)
Definition from_zeroes (zs : list F) : poly :=
  trim (fold_left (fun r z => sub (0 :: r) (mul_scalar r z)) zs pone).

(** field_polynomial.rs 470-501 [div_rem].  [set i x l] is an assignment to an index in range. *)
Fixpoint set (i : nat) (x : F) (l : list F) : list F :=
  match l, i with [], _ => [] | _ :: l', O => x :: l' | a :: l', S i' => a :: set i' x l' end.
(** field_polynomial.rs 483-487: the inner loop [rem[i+j] -= qi * divisor[j]]. *)
Fixpoint sub_row (qi : F) (d : poly) (i : nat) (rem : poly) : poly :=
  match i, rem with
  | O, _ => map (fun rd => fst rd - qi * snd rd) (combine rem d) ++ skipn (length d) rem
  | S i', a :: rem' => a :: sub_row qi d i' rem'
  | S _, [] => []
  end.
(** field_polynomial.rs 480-489: [n] is the number of rounds left, the index is [n - 1]. *)
Fixpoint div_loop (n : nat) (inv : F) (d rem quo : poly) : poly * poly :=
  match n with
  | O => (quo, rem)
  | S i =>
      let qi := inv * nth (i + length d - 1) rem 0 in
      div_loop i inv d (sub_row qi d i rem) (set i qi quo)
  end.
Definition div_rem (p d : poly) : res (poly * poly) :=
  let k := length p in let l := length d in
  if Nat.ltb k l then Ok (pzero, p) else
  match rev d with
  | [] => Panic
  | b :: _ =>
      if feqb b 0 then Panic else
      let (quo, rem) := div_loop (k - l + 1) (finv b) d p (repeat 0 (k - l + 1)) in
      let rem := firstn (length rem - (k - l + 1)) rem in
      let rem := match rem with [] => [0] | _ => rem end in
      Ok (trim (from_coefs quo), trim (from_coefs rem))
  end.

(** ** FFT *)
(** [usize::is_power_of_two] and the assertions of lines 506-509, 517-520, 557, 644. *)
Definition pow2b (n : nat) : bool := negb (Nat.eqb n 0) && Nat.eqb n (2 ^ Nat.log2 n).
Definition fft_size (n : nat) : bool := pow2b n || (Nat.eqb (n mod 3) 0 && pow2b (n / 3)).
(** field_polynomial.rs 580-591: the entries at even and at odd positions. *)
Fixpoint evens {A : Type} (l : list A) : list A := match l with [] => [] | [a] => [a] | a :: _ :: l' => a :: evens l' end.
Fixpoint odds {A : Type} (l : list A) : list A := match l with [] => [] | [_] => [] | _ :: b :: l' => b :: odds l' end.
(** field_polynomial.rs 596-603: the loop filling both halves. *)
Fixpoint butterflies (omega root : F) (ye yo : list F) : list F * list F :=
  match ye, yo with
  | e :: ye', o :: yo' =>
      let w := omega * o in
      let r := butterflies (omega * root) root ye' yo' in
      (e + w :: fst r, e - w :: snd r)
  | _, _ => ([], [])
  end.
(** field_polynomial.rs 555-605 [recursive_fft]; [fuel] bounds the depth (the length suffices). *)
Fixpoint rfft (fuel : nat) (coefs : list F) (root : F) : res (list F) :=
  match fuel with
  | O => Panic
  | S f =>
      let n := length coefs in
      if negb (fft_size n) then Panic else
      match coefs with
      | [a] => Ok [a]
      | [c0; c1; c2] =>
          let sq := root * root in let quad := sq * sq in
          Ok [c0 + c1 + c2; c0 + c1 * root + c2 * sq; c0 + c1 * sq + c2 * quad]
      | _ =>
          let sq := root * root in
          bind (rfft f (evens coefs) sq) (fun ye =>
          bind (rfft f (odds coefs) sq) (fun yo =>
          let r := butterflies 1 root ye yo in Ok (fst r ++ snd r)))
      end
  end.
Definition recursive_fft (coefs : list F) (root : F) : res (list F) := rfft (S (length coefs)) coefs root.
(** traits.rs 91-106 [pow], bit by bit from the low end, 64 rounds per limb. *)
Fixpoint pow_bits (n : nat) (e : N) (base result : F) : F * F :=
  match n with
  | O => (base, result)
  | S n' => pow_bits n' (N.div2 e) (base * base) (if N.odd e then result * base else result)
  end.
Definition pow_limbs (x : F) (limbs : list N) : F :=
  snd (fold_left (fun br e => pow_bits 64 e (fst br) (snd br)) limbs (x, 1)).
(** field_polynomial.rs 642-656 [recursive_ifft]; [n as u32] keeps 32 bits, [inv] of zero panics. *)
Definition recursive_ifft (values : list F) (root : F) : res (list F) :=
  let n := length values in
  if negb (fft_size n) then Panic else
  let root_inv := pow_limbs root [N.of_nat (n - 1)] in
  let nf := fofN (N.of_nat n mod 2 ^ 32) in
  if feqb nf 0 then Panic else
  bind (recursive_fft values root_inv) (fun l => Ok (map (fun x => finv nf * x) l)).
(** field_polynomial.rs 516-528 [fft_with_unity_root]; the subtraction of line 524 panics below
    zero (in a release build the allocation of 2^64 - 1 entries does). *)
Definition fft_with_unity_root (p : poly) (root : F) (n : nat) : res (list F) :=
  if negb (fft_size n) then Panic else
  if Nat.ltb (degree p) (n + 1) then
    if Nat.ltb n (degree p + 1) then Panic else recursive_fft (p ++ repeat 0 (n - degree p - 1)) root
  else recursive_fft p root.
(** field_polynomial.rs 531-533, 537-544, 548-550; [resize]. *)
Definition coset_fft (p : poly) (root : F) (n : nat) (k : F) : res (list F) := fft_with_unity_root (mul_var p k) root n.
Definition resize (n : nat) (l : list F) : list F := firstn n l ++ repeat 0 (n - length l).
Definition ffti (root : F) (values : list F) (len : nat) : res poly :=
  bind (recursive_ifft (resize len values) root) (fun c => Ok (from_coefs c)).
Definition coset_ffti (root : F) (values : list F) (k_inv : F) (len : nat) : res poly :=
  bind (ffti root values len) (fun p => Ok (mul_var p k_inv)).
(** field_polynomial.rs 622-637 [u32_limbs_to_u64_limbs]. *)
Fixpoint u64_loop (i : nat) (even : N) (s : list N) : list N :=
  match s with
  | [] => if N.eqb even 0 then [] else [even]
  | x :: s' => if Nat.even i then u64_loop (S i) x s' else (even + x * 2 ^ 32)%N :: u64_loop (S i) 0 s'
  end.
Definition u64_limbs (s : list N) : list N := u64_loop 0 0 s.
(** [BigUint::to_u32_digits]: little endian, no leading zero. *)
Fixpoint u32_digits (fuel : nat) (e : N) : list N :=
  match fuel with
  | O => []
  | S f => if N.eqb e 0 then [] else (e mod 2 ^ 32)%N :: u32_digits f (e / 2 ^ 32)
  end.
(** field_polynomial.rs 608-619 [primitive_nth_root_of_unity]: [g] the multiplicative generator,
    [q] the field size; division by zero panics. *)
Definition nth_root_of_unity (g : F) (q : N) (n : nat) : res (option F) :=
  if Nat.eqb n 0 then Panic else
  let e := ((q - 1) / N.of_nat n)%N in
  if negb (N.eqb ((q - 1) mod N.of_nat n) 0) then Ok None else
  Ok (Some (pow_limbs g (u64_limbs (u32_digits (N.to_nat (N.size e)) e)))).
(** field_polynomial.rs 505-512 [fft]. *)
Definition fft (g : F) (q : N) (p : poly) (n : nat) : res (option (list F * F)) :=
  if negb (fft_size n) then Panic else
  bind (nth_root_of_unity g q n) (fun w =>
  match w with
  | None => Ok None
  | Some root => bind (fft_with_unity_root p root n) (fun v => Ok (Some (v, root)))
  end).
End Poly.
