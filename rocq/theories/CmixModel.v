(** Model of the confidential multi-asset mix, crypto/src/bulletproofs/mix.rs, and of
    its entry points in api/src/xfr/asset_mixer.rs.

    Representation and simplifications.
    - The constraint system of the bulletproofs crate (not part of the repository) is a
      list of numbered variables, of linear constraints and of multiplication gates; a
      closure given to [specify_randomized_constraints] is a value of type [later], run in
      order after the first phase with challenges taken from a stream. The crate packs
      two [allocate]d variables into one multiplication gate; here they are two
      variables.
    - Prover and verifier run the same code on different constraint systems: the
      prover's values are the list [wit]; the verifier, who passes no values, gets zeros
      there and uses the structure only.
    - Commitments to the inputs and outputs are the variables allocated first; the
      cryptographic proof itself is not modelled. *)
From Coq Require Import List Arith ZArith Bool.
From Verif Require Import Base Field PField.
Import ListNotations.
Local Open Scope F_scope.

Section Cmix.
Context {F : PField}.

(** ** Constraint systems *)
(** A linear combination: terms and a constant. *)
Definition lc := (list (nat * F) * F)%type.
Definition lvar (v : nat) : lc := ([(v, 1)], 0).
Definition lconst (k : F) : lc := ([], k).
Definition lscale (k : F) (a : lc) : lc := (map (fun t => (fst t, k * snd t)) (fst a), k * snd a).
Definition ladd (a b : lc) : lc := (fst a ++ fst b, snd a + snd b).
Definition lsub (a b : lc) : lc := ladd a (lscale (fopp 1) b).
Fixpoint leval_terms (w : nat -> F) (t : list (nat * F)) : F :=
  match t with [] => 0 | (v, k) :: t' => k * w v + leval_terms w t' end.
Definition leval (w : nat -> F) (a : lc) : F := leval_terms w (fst a) + snd a.

(** A pair of variables: mix.rs 97-104 [MixVariable]; 44-51 [MixValue]. *)
Record mvar := mkVar { v_amount : nat; v_type : nat }.
Record mval := mkVal { amount : F; atype : F }.
(** The two kinds of closures of mix.rs: 393-414 and 440-462. *)
Inductive later :=
| LGate (in1 in2 out1 out2 : mvar)
| LShuffle (l : list (mvar * mvar)).
Record cs := mkCs { nv : nat; wit : list F; lin : list lc; muls : list (nat * nat * nat); defer : list later; next : nat }.
Definition empty : cs := mkCs 0 [] [] [] [] 0.
Definition wval (c : cs) : nat -> F := fun i => nth i (wit c) 0.

Definition allocate (x : F) (c : cs) : nat * cs :=
  (nv c, mkCs (S (nv c)) (wit c ++ [x]) (lin c) (muls c) (defer c) (next c)).
Definition constrain (a : lc) (c : cs) : cs := mkCs (nv c) (wit c) (lin c ++ [a]) (muls c) (defer c) (next c).
Definition allocate_multiplier (x y : F) (c : cs) : nat * nat * nat * cs :=
  (nv c, S (nv c), S (S (nv c)),
   mkCs (S (S (S (nv c)))) (wit c ++ [x; y; x * y]) (lin c) (muls c ++ [(nv c, S (nv c), S (S (nv c)))]) (defer c) (next c)).
Definition multiply (a b : lc) (c : cs) : nat * nat * nat * cs :=
  let '(l, r, o, c1) := allocate_multiplier (leval (wval c) a) (leval (wval c) b) c in
  (l, r, o, constrain (lsub b (lvar r)) (constrain (lsub a (lvar l)) c1)).
Definition specify (k : later) (c : cs) : cs := mkCs (nv c) (wit c) (lin c) (muls c) (defer c ++ [k]) (next c).
Definition challenge (ch : nat -> F) (c : cs) : F * cs :=
  (ch (next c), mkCs (nv c) (wit c) (lin c) (muls c) (defer c) (S (next c))).

(** ** The gadgets *)
(** mix.rs 305-336 [allocate_mix_vector]: with values their number decides, [len] otherwise. *)
Fixpoint alloc_values (l : list mval) (c : cs) : list mvar * cs :=
  match l with
  | [] => ([], c)
  | v :: l' =>
      let (a, c1) := allocate (amount v) c in
      let (t, c2) := allocate (atype v) c1 in
      let (r, c3) := alloc_values l' c2 in
      (mkVar a t :: r, c3)
  end.
Definition allocate_mix_vector (l : option (list mval)) (len : nat) (c : cs) : list mvar * cs :=
  alloc_values (match l with Some l => l | None => repeat (mkVal 0 0) len end) c.

(** mix.rs 179-192 [pad]. *)
Definition pad (expected : nat) (l : list mvar) (c : cs) : list mvar * cs :=
  let (r, c1) := alloc_values (repeat (mkVal 0 0) (expected - length l)) c in (l ++ r, c1).

(** mix.rs 202-220 [sort]: arrange equal types together. *)
Fixpoint set_nth {A} (i : nat) (x : A) (l : list A) : list A :=
  match i, l with O, _ :: l' => x :: l' | S i', y :: l' => y :: set_nth i' x l' | _, [] => [] end.
Definition swap {A} (d : A) (i j : nat) (l : list A) : list A := set_nth i (nth j l d) (set_nth j (nth i l d) l).
Definition dval : mval := mkVal 0 0.
(** mix.rs 207-217: the inner loop, [fuel] at least the distance of the two indices. *)
Fixpoint sort_inner (fuel : nat) (t : F) (l : list mval) (j s : nat) : list mval * nat :=
  match fuel with
  | O => (l, j)
  | S fuel' =>
      if Nat.ltb j s then
        if feqb t (atype (nth j l dval)) then sort_inner fuel' t l (S j) s
        else sort_inner fuel' t (swap dval j s l) j (pred s)
      else (l, j)
  end.
(** mix.rs 203-220: the outer loop. *)
Fixpoint sort_outer (fuel : nat) (l : list mval) (i : nat) : list mval :=
  match fuel with
  | O => l
  | S fuel' =>
      if Nat.ltb i (length l) then
        let (l', j) := sort_inner (length l) (atype (nth i l dval)) l (S i) (pred (length l)) in
        sort_outer fuel' l' j
      else l
  end.
Definition sort (l : list mval) : list mval := sort_outer (length l) l 0.

(** mix.rs 234-264 [merge]: intermediate and merged values; [sorted\[0\]] panics on the empty list. *)
Fixpoint merge_loop (prev : mval) (l : list mval) : list mval * list mval :=
  match l with
  | [] => ([], [])
  | v :: l' =>
      if feqb (atype v) (atype prev) then
        let s := mkVal (amount prev + amount v) (atype v) in
        let (i, m) := merge_loop s l' in (s :: i, mkVal 0 0 :: m)
      else let (i, m) := merge_loop v l' in (v :: i, prev :: m)
  end.
Definition merge (l : list mval) : res (list mval * list mval) :=
  match l with
  | [] => Panic
  | [v] => Ok ([], [v])
  | v :: l' => let (i, m) := merge_loop v l' in Ok (removelast i, m ++ [last i dval])
  end.

(** mix.rs 341-378 [mix_merge_or_not_gadget], with one [LGate] for every gate_mix_or_not (386-416). *)
Definition gates_for (in1 in2 out1 out2 : list mvar) : list later :=
  map (fun q => LGate (fst (fst (fst q))) (snd (fst (fst q))) (snd (fst q)) (snd q)) (combine (combine (combine in1 in2) out1) out2).
Definition mix_merge_or_not_gadget (sorted inter merged : list mvar) (c : cs) : res (nat * cs) :=
  match sorted, merged with
  | s0 :: s', m0 :: m' =>
      let l := length sorted in
      if Nat.eqb l 1 then
        Ok (0%nat, constrain (lsub (lvar (v_type s0)) (lvar (v_type m0))) (constrain (lsub (lvar (v_amount s0)) (lvar (v_amount m0))) c))
      else if negb (Nat.eqb l (length merged)) || negb (Nat.eqb l (length inter + 2)) then Panic
      else
        let gs := gates_for (s0 :: inter) s' (removelast merged) (inter ++ [last merged m0]) in
        Ok (length gs, fold_left (fun c g => specify g c) gs c)
  | _, _ => Panic
  end.
(** mix.rs 420-466 [mix_shuffle_gadget]. *)
Definition mix_shuffle_gadget (input perm : list mvar) (c : cs) : res (nat * cs) :=
  let l := length input in
  if negb (Nat.eqb l (length perm)) then Err else
  match input, perm with
  | [], _ => Ok (0%nat, c)
  | [i0], p0 :: _ =>
      Ok (0%nat, constrain (lsub (lvar (v_type p0)) (lvar (v_type i0))) (constrain (lsub (lvar (v_amount p0)) (lvar (v_amount i0))) c))
  | _, _ => Ok ((l + 2 * (l - 1))%nat, specify (LShuffle (combine input perm)) c)
  end.
(** mix.rs 267-302 [sort_and_merge]. *)
Definition sort_and_merge (vars : list mvar) (values : option (list mval)) (c : cs) : res (nat * list mvar * cs) :=
  let len := length vars in
  if Nat.eqb len 0 then Ok (0%nat, [], c) else
  if Nat.eqb len 1 then
    let (r, c1) := allocate_mix_vector values 1 c in Ok (0%nat, r, c1)
  else
    let sorted := option_map sort values in
    bind (match sorted with None => Ok None | Some s => rmap Some (merge s) end) (fun merged =>
    let (sv, c1) := allocate_mix_vector sorted len c in
    let (iv, c2) := allocate_mix_vector (option_map fst merged) (len - 2) c1 in
    let (mv, c3) := allocate_mix_vector (option_map snd merged) len c2 in
    bind (mix_shuffle_gadget vars sv c3) (fun r1 =>
    bind (mix_merge_or_not_gadget sv iv mv (snd r1)) (fun r2 =>
    Ok ((fst r1 + fst r2)%nat, mv, snd r2)))).

(** mix.rs 520-565 [range_proof_64]: [bits] are the prover's bits of the value. *)
Fixpoint range_loop (bits : list bool) (e : F) (var : lc) (c : cs) : lc * cs :=
  match bits with
  | [] => (var, c)
  | b :: bits' =>
      let '(x, y, o, c1) := allocate_multiplier (if b then 0 else 1) (if b then 1 else 0) c in
      let c2 := constrain (ladd (lvar x) (lsub (lvar y) (lconst 1))) (constrain (lvar o) c1) in
      range_loop bits' (e + e) (lsub var (lscale e (lvar y))) c2
  end.
(** The first 64 bits of the little-endian encoding of the value. *)
Definition bits_of (x : F) : list bool := map (fun i => Z.testbit (toZ x) (Z.of_nat i)) (seq 0 64).
(** mix.rs 520-565 [range_proof_64]. *)
Definition range_proof_64 (var : lc) (value : option F) (c : cs) : nat * cs :=
  let (var', c1) := range_loop (match value with Some v => bits_of v | None => repeat false 64 end) 1 var c in
  (64%nat, constrain var' c1).
Fixpoint range_all (outs : list mvar) (values : option (list mval)) (c : cs) : nat * cs :=
  match outs with
  | [] => (0%nat, c)
  | o :: outs' =>
      let (n, c1) := range_proof_64 (lvar (v_amount o)) (option_map (fun l => amount (hd dval l)) values) c in
      let (m, c2) := range_all outs' (option_map (fun l => tl l) values) c1 in ((n + m)%nat, c2)
  end.

(** mix.rs 131-176 [mix]. *)
Definition mix (ins : list mvar) (in_values : option (list mval)) (outs : list mvar) (out_values : option (list mval)) (c : cs) : res (nat * cs) :=
  let n := length ins in let m := length outs in
  if negb ((Nat.ltb 0 n && Nat.ltb 0 m) || Nat.eqb m n) then Panic else
  if Nat.eqb m 0 then Ok (0%nat, c) else
  bind (sort_and_merge ins in_values c) (fun r1 => let '(g1, mi, c1) := r1 in
  bind (sort_and_merge outs out_values c1) (fun r2 => let '(g2, mo, c2) := r2 in
  let '(mi', mo', c3) := if Nat.ltb n m then let (x, y) := pad m mi c2 in (x, mo, y) else let (x, y) := pad n mo c2 in (mi, x, y) in
  bind (mix_shuffle_gadget mi' mo' c3) (fun r3 =>
  let (g4, c4) := range_all outs out_values (snd r3) in
  Ok ((g1 + g2 + fst r3 + g4)%nat, c4)))).

(** ** The second phase *)
Definition msub_ (a b : nat) : lc := lsub (lvar a) (lvar b).
(** mix.rs 398-412: the product of gate_mix_or_not. *)
Definition gate_left (i1 i2 o1 o2 : mvar) (x1 x2 x3 : F) : lc :=
  ladd (ladd (ladd (msub_ (v_amount i1) (v_amount o1)) (lscale x1 (msub_ (v_type i1) (v_type o1))))
    (lscale x2 (msub_ (v_amount i2) (v_amount o2)))) (lscale x3 (msub_ (v_type i2) (v_type o2))).
Definition gate_right (i1 i2 o1 o2 : mvar) (x1 x2 x3 : F) : lc :=
  ladd (ladd (ladd (lvar (v_amount o1)) (lscale x1 (msub_ (v_type i1) (v_type i2))))
    (lscale x2 (lsub (msub_ (v_amount o2) (v_amount i1)) (lvar (v_amount i2))))) (lscale x3 (msub_ (v_type o2) (v_type i1))).
(** mix.rs 470-517 [list_shuffle]: the product of [x - challenge], from the last two on. *)
Fixpoint product_chain (z : F) (prev : nat) (l : list nat) (c : cs) : nat * cs :=
  match l with
  | [] => (prev, c)
  | v :: l' => let '(_, _, o, c1) := multiply (lvar prev) (lsub (lvar v) (lconst z)) c in product_chain z o l' c1
  end.
Definition product_of (z : F) (l : list nat) (c : cs) : nat * cs :=
  match rev l with
  | a :: b :: r => let '(_, _, o, c1) := multiply (lsub (lvar a) (lconst z)) (lsub (lvar b) (lconst z)) c in product_chain z o r c1
  | _ => (0%nat, c)
  end.
Definition list_shuffle (ch : nat -> F) (input perm : list nat) (c : cs) : cs :=
  match input, perm with
  | [], _ => c
  | [i], p :: _ => constrain (lsub (lvar p) (lvar i)) c
  | _, _ =>
      let (z, c1) := challenge ch c in
      let (x, c2) := product_of z input c1 in
      let (y, c3) := product_of z perm c2 in
      constrain (lsub (lvar x) (lvar y)) c3
  end.
(** mix.rs 445-454: one variable for every pair. *)
Fixpoint singles (k : F) (l : list (mvar * mvar)) (c : cs) : list nat * list nat * cs :=
  match l with
  | [] => ([], [], c)
  | (a, b) :: l' =>
      let '(x, y, _, c1) := multiply (ladd (lvar (v_amount a)) (lscale k (lvar (v_type a)))) (ladd (lvar (v_amount b)) (lscale k (lvar (v_type b)))) c in
      let '(xs, ys, c2) := singles k l' c1 in (x :: xs, y :: ys, c2)
  end.
Definition run_later (ch : nat -> F) (c : cs) (k : later) : cs :=
  match k with
  | LGate i1 i2 o1 o2 =>
      let (x1, c1) := challenge ch c in let (x2, c2) := challenge ch c1 in let (x3, c3) := challenge ch c2 in
      let '(_, _, o, c4) := multiply (gate_left i1 i2 o1 o2 x1 x2 x3) (gate_right i1 i2 o1 o2 x1 x2 x3) c3 in
      constrain (lvar o) c4
  | LShuffle l =>
      let (k, c1) := challenge ch c in
      let '(xs, ys, c2) := singles k l c1 in list_shuffle ch xs ys c2
  end.
(** The whole system: the second phase runs the closures in order. *)
Definition finish (ch : nat -> F) (c : cs) : cs := fold_left (run_later ch) (defer c) c.

(** ** Entry points *)
(** asset_mixer.rs 201-238 [prepare_asset_mixer_verifier]: two variables for every commitment, then [mix]. *)
Definition verifier_system (n m : nat) : res (list mvar * list mvar * cs) :=
  let (iv, c1) := alloc_values (repeat dval n) empty in
  let (ov, c2) := alloc_values (repeat dval m) c1 in
  rmap (fun r => (iv, ov, snd r)) (mix iv None ov None c2).
(** asset_mixer.rs 51-112 [prove_asset_mixing]: the type sets must agree; the proof itself is not modelled. *)
Definition tmem (t : F) (l : list mval) : bool := existsb (fun v => feqb t (atype v)) l.
Definition same_types (a b : list mval) : bool := forallb (fun v => tmem (atype v) b) a && forallb (fun v => tmem (atype v) a) b.
Definition prover_system (ins outs : list mval) : res (list mvar * list mvar * cs) :=
  if negb (same_types ins outs) then Err else
  let (iv, c1) := alloc_values ins empty in
  let (ov, c2) := alloc_values outs c1 in
  rmap (fun r => (iv, ov, snd r)) (mix iv (Some ins) ov (Some outs) c2).
(** asset_mixer.rs 248-274 [asset_mix_num_generators]; a subtraction below zero panics in debug builds. *)
Definition csub (a b : nat) : res nat := if Nat.ltb a b then Panic else Ok (a - b)%nat.
Definition asset_mix_num_generators (n m : nat) : res nat :=
  let mx := Nat.max n m in let mn := Nat.min n m in
  bind (csub (3 * n) 2) (fun si => bind (csub (3 * m) 2) (fun so => bind (csub (3 * mx) 2) (fun sm =>
  bind (csub n 2) (fun mi => bind (csub m 2) (fun mo => bind (csub (2 * n) 1) (fun gi => bind (csub (2 * m) 1) (fun go =>
  Ok (n + m + (mx - mn) + mi + mo + si + so + sm + 64 * m + gi + go)%nat))))))).
End Cmix.
Arguments lc F : clear implicits. Arguments mval F : clear implicits. Arguments cs F : clear implicits.
