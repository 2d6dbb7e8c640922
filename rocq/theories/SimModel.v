(** Simulation of a foreign field over BLS12-381 scalars.
    Native part: crypto/src/field_simulation.rs; in-circuit part:
    plonk/src/plonk/constraint_system/field_simulation/{fr_var,fr_mul_var}.rs.
    [BigUint] is modelled by nonnegative integers; its subtraction panics when
    the result would be negative.  The circuit field is a parameter.  Both
    parameter sets of the code have six limbs and six groups; these numbers are
    fixed here.  [debug_assert]s are not modelled (release build). *)
From Coq Require Import List ZArith Bool.
From Verif Require Import Base Field PField TurboModel RescueModel.
Import ListNotations.

(** field_simulation.rs 9-35 [SimFrParams].  11-19: the constants. *)
Record params := mkParams {
  BIT_PER_LIMB : nat;
  BIT_IN_TOP_LIMB : nat;
  modulus : Z;                (* scalar_field_in_biguint *)
  modulus_limbs : list Z;     (* scalar_field_in_limbs *)
  pad_limbs : list Z;         (* scalar_field_sub_pad_in_limbs *)
  pad_value : Z               (* scalar_field_sub_pad_in_biguint *)
}.
Definition NUM_OF_LIMBS : nat := 6.
Definition NUM_OF_LIMBS_MUL : nat := NUM_OF_LIMBS * 2 - 1.

(** field_simulation.rs 41-84. *)
Definition ristretto : params := mkParams 43 38
  7237005577332262213973186563042994240857116359379907606001950938285454250989
  [3411763647469; 7643343815244; 358561053323; 0; 0; 137438953472]%Z
  [10235290942407; 14133938423524; 9871776182178; 17592186044415; 17592186044414; 412316860414]%Z
  21711016731996786641919559689128982722571349078139722818005852814856362752967.
(** field_simulation.rs 90-133. *)
Definition secq256k1 : params := mkParams 44 36
  115792089237316195423570985008687907853269984665640564039457584007908834671663
  [17587891076143; 17592186044415; 17592186044415; 17592186044415; 17592186044415; 68719476735]%Z
  [35175782152286; 35184372088830; 35184372088830; 35184372088830; 35184372088830; 137438953470]%Z
  231584178474632390847141970017375815706539969331281128078915168015817669343326.

(** field_simulation.rs 137-154 [SimReducibility] and its conversion. *)
Inductive reducibility := Strict | ByOne | Others (n : Z).
Definition additions (r : reducibility) : Z :=
  match r with Strict => 0 | ByOne => 1 | Others n => n end.

Section Sim.
Context (F : PField) (P : params).
Local Open Scope F_scope.
Notation B := (BIT_PER_LIMB P).
Notation "l .[ i ]" := (nth i l 0) (at level 9, format "l .[ i ]").
Definition step : Z := 2 ^ Z.of_nat B.

(** field_simulation.rs 159-168 [SimFr]; 279-288 [SimFrMul]. *)
Record sim := mkSim { limbs : list F; sval : Z; red : reducibility }.
Record simul := mkSimul { mlimbs : list F; mval : Z; prod_additions : Z }.

(** field_simulation.rs 184-208. *)
Definition sim_sub (a b : sim) : res sim :=
  match red b with
  | Others _ => Panic
  | _ =>
      if (sval a + pad_value P <? sval b)%Z then Panic
      else Ok (mkSim (map (fun i => (limbs a).[i] + fofZ (nth i (pad_limbs P) 0%Z) - (limbs b).[i]) (seq 0 NUM_OF_LIMBS))
                     (sval a + pad_value P - sval b) (Others (additions (red a) + 3)))
  end.
(** The index ranges of fr_var.rs 75-78 and fr_mul_var.rs 148-151. *)
Definition lefts (i : nat) : list nat :=
  let lo := (Nat.max NUM_OF_LIMBS (i + 1) - NUM_OF_LIMBS)%nat in
  let hi := Nat.min i (NUM_OF_LIMBS - 1) in
  seq lo (hi + 1 - lo).
(** field_simulation.rs 216-220 and 395-400: the two nested loops add the
    products of each position in the order of the left index. *)
Definition convolve (a b : list F) : list F :=
  map (fun i => fold_left (fun acc l => acc + a.[l] * b.[i - l]) (lefts i) 0) (seq 0 NUM_OF_LIMBS_MUL).
(** field_simulation.rs 214-227. *)
Definition sim_mul (a b : sim) : simul :=
  mkSimul (convolve (limbs a) (limbs b)) (sval a * sval b)
          ((additions (red a) + 1) * (additions (red b) + 1)).
(** field_simulation.rs 231-246 [From<&BigUint>]. *)
Fixpoint digits (n : nat) (x : Z) : list F :=
  match n with
  | O => []
  | S n' => fofZ (x mod step) :: digits n' (x / step)
  end.
Definition sim_from (x : Z) : sim := mkSim (digits NUM_OF_LIMBS x) x Strict.
(** field_simulation.rs 250-259 and 302-311 [Into<BigUint>]. *)
Definition recompose (l : list F) : Z := fold_right (fun x acc => acc * step + toZ x)%Z 0%Z l.
Definition sim_into (a : sim) : res Z :=
  if (recompose (limbs a) =? sval a)%Z then Ok (recompose (limbs a)) else Panic.
Definition simul_into (m : simul) : res Z :=
  if (recompose (mlimbs m) =? mval m)%Z then Ok (recompose (mlimbs m)) else Panic.
(** field_simulation.rs 266-272. *)
Definition is_zero (a : sim) : res bool := rmap (fun x => (x mod modulus P =? 0)%Z) (sim_into a).
(** field_simulation.rs 317-328. *)
Definition simul_add (a b : simul) : simul :=
  mkSimul (map (fun i => (mlimbs a).[i] + (mlimbs b).[i]) (seq 0 NUM_OF_LIMBS_MUL))
          (mval a + mval b) (prod_additions a + prod_additions b).
(** field_simulation.rs 334-356.  The limbs above the sixth are kept. *)
Definition pad4 (i : nat) : F :=
  let p := fofZ (nth i (pad_limbs P) 0%Z) in p + p + p + p.
Definition simul_sub (a : simul) (b : sim) : res simul :=
  if (4 <? additions (red b))%Z then Panic
  else if (mval a + 4 * pad_value P <? sval b)%Z then Panic
  else Ok (mkSimul (map (fun i => let p := fofZ (nth i (pad_limbs P) 0%Z) in
                                  (mlimbs a).[i] + p + p + p + p - (limbs b).[i]) (seq 0 NUM_OF_LIMBS)
                    ++ skipn NUM_OF_LIMBS (mlimbs a))
                   (mval a + 4 * pad_value P - sval b) (prod_additions a + 12)).

(** field_simulation.rs 378 and fr_mul_var.rs 107. *)
Definition surfeit : nat := 5.
(** field_simulation.rs 408-423: [chunks(2)]. *)
Fixpoint groups (l : list F) : list (F * nat) :=
  match l with
  | [] => []
  | [a] => [(a, 1%nat)]
  | a :: b :: l' => (a + b * fofZ step, 2%nat) :: groups l'
  end.
(** field_simulation.rs 437-440. *)
Definition pad (n : nat) : Z := 2 ^ Z.of_nat ((n + 1) * B + n + surfeit).
Definition shift (n : nat) : Z := 2 ^ Z.of_nat (B * n).
(** field_simulation.rs 444-449. *)
Definition carry_of (lg rg carry_in : F) (n : nat) : F :=
  fofZ (toZ (lg + carry_in + fofZ (pad n) - rg) / shift n).
(** field_simulation.rs 429-478. *)
Fixpoint check_groups (gs : list (F * F * nat)) (carry_in : F) (extra : Z) : res unit :=
  match gs with
  | [] => Ok tt
  | (lg, rg, n) :: gs' =>
      if (pad n <=? toZ rg)%Z then Panic
      else
        let carry := carry_of lg rg carry_in n in
        let e := (extra + toZ (fofZ (F := F) (pad n)))%Z in
        if feqb (lg + fofZ (pad n) + carry_in - rg) (carry * fofZ (shift n) + fofZ (e mod shift n)) then
          let e' := (e / shift n)%Z in
          if match gs' with
             | [] => feqb carry (fofZ e')
             | _ => (toZ carry <? 2 ^ Z.of_nat (surfeit + B * 2))%Z
             end
          then check_groups gs' carry e'
          else Panic
        else Panic
  end.
(** field_simulation.rs 374-479 [enforce_zero]; [bits() <= 5] is [< 32]. *)
Definition zip_groups (l r : list F) : list (F * F * nat) :=
  map (fun p => (fst (fst p), fst (snd p), snd (fst p))) (combine (groups l) (groups r)).
Definition enforce_zero (m : simul) : res unit :=
  if (32 <=? prod_additions m)%Z then Panic
  else bind (simul_into m) (fun x =>
    let k := (x / modulus P)%Z in
    if negb (x mod modulus P =? 0)%Z then Panic
    else if (modulus P * 2 ^ 5 <? k)%Z then Panic
    else check_groups (zip_groups (mlimbs m) (convolve (map fofZ (modulus_limbs P)) (limbs (sim_from k)))) 0 0).

(** ** In the circuit *)
(** Gadgets that may panic. *)
Definition CR (A : Type) := tcs F -> res (A * tcs F).
Definition lift {A} (m : CS F A) : CR A := fun c => Ok (m c).
Definition rbnd {A B} (m : CR A) (f : A -> CR B) : CR B := fun c =>
  match m c with Ok (a, c') => f a c' | Err => Err | Panic => Panic end.
Definition rret {A} (a : A) : CR A := fun c => Ok (a, c).
Definition of_res {A} (r : res A) : CR A := fun c => rmap (fun a => (a, c)) r.
Definition require (b : bool) : CR unit := fun c => if b then Ok (tt, c) else Panic.
Notation mapC := (RescueModel.mapM F).

(** fr_var.rs 12-17; fr_mul_var.rs 14-19. *)
Record simvar := mkSimvar { sv : sim; svar : list nat }.
Record simulvar := mkSimulvar { mv : simul; mvar : list nat }.
Notation "l .{ i }" := (nth i l 0%nat) (at level 9, format "l .{ i }").

(** fr_var.rs 46-58 and fr_mul_var.rs 81-98: [out := a - b + constant]. *)
Definition sub_row (k : F) (a b o : nat) : gate F :=
  mkGate 1 0 (- (1)) 0 0 0 k 0 0 0 0 0 1 a zero_var b zero_var o false None.
(** fr_var.rs 29-62. *)
Definition var_sub (a b : simvar) : CR simvar :=
  rbnd (of_res (sim_sub (sv a) (sv b))) (fun v =>
  lift (bnd (mapC (fun i => bnd (new_variable F (limbs v).[i]) (fun o =>
                            bnd (push_gate F (sub_row (fofZ (nth i (pad_limbs P) 0%Z)) (svar a).{i} (svar b).{i} o)) (fun _ =>
                            ret o))) (seq 0 NUM_OF_LIMBS)) (fun l => ret (mkSimvar v l)))).

(** fr_var.rs 90-102: [out := prior + a * b]. *)
Definition mac_row (prior a b o : nat) : gate F :=
  mkGate 1 0 0 0 0 1 0 0 0 0 0 0 1 prior zero_var a b o false None.
(** fr_var.rs 80-108. *)
Fixpoint mac_loop (a b : simvar) (i : nat) (ls : list nat) (prior : nat) (x : F) : CS F nat :=
  match ls with
  | [] => ret prior
  | l :: ls' =>
      let y := x + (limbs (sv a)).[l] * (limbs (sv b)).[i - l] in
      bnd (new_variable F y) (fun o =>
      bnd (push_gate F (mac_row prior (svar a).{l} (svar b).{i - l} o)) (fun _ =>
      mac_loop a b i ls' o y))
  end.
(** fr_var.rs 65-111. *)
Definition var_mul (a b : simvar) : CS F simulvar :=
  bnd (mapC (fun i => mac_loop a b i (lefts i) zero_var 0) (seq 0 NUM_OF_LIMBS_MUL)) (fun l =>
  ret (mkSimulvar (sim_mul (sv a) (sv b)) l)).

(** fr_var.rs 114-122. *)
Definition alloc_constant (v : sim) : CS F simvar :=
  bnd (mapC (fun i => bnd (new_variable F (limbs v).[i]) (fun o =>
                      bnd (insert_constant_gate F o (limbs v).[i]) (fun _ => ret o))) (seq 0 NUM_OF_LIMBS)) (fun l =>
  ret (mkSimvar v l)).
(** fr_var.rs 125-132. *)
Definition alloc_input (v : sim) : CS F simvar :=
  bnd (mapC (fun i => new_variable F (limbs v).[i]) (seq 0 NUM_OF_LIMBS)) (fun l => ret (mkSimvar v l)).
Definition is_strict (r : reducibility) : bool := match r with Strict => true | _ => false end.
(** The width of limb [i]: fr_var.rs 147-151. *)
Definition width (i : nat) : nat := if Nat.eqb i (NUM_OF_LIMBS - 1) then BIT_IN_TOP_LIMB P else B.
(** fr_var.rs 135-154. *)
Definition alloc_witness (v : sim) : CR (simvar * list nat) :=
  rbnd (require (is_strict (red v))) (fun _ =>
  lift (bnd (mapC (fun i => bnd (new_variable F (limbs v).[i]) (fun o =>
                            bnd (range_check F o (width i)) (fun b => ret (o, b)))) (seq 0 NUM_OF_LIMBS)) (fun l =>
        ret (mkSimvar (mkSim (limbs v) (sval v) ByOne) (map fst l), flat_map snd l)))).
(** fr_var.rs 157-185.  A range check of fewer than two bits panics. *)
Fixpoint bounded_loop (v : sim) (is_ : list nat) (remaining : nat) : CR (list nat * list nat) :=
  match is_ with
  | [] => rret ([], [])
  | i :: is' =>
      if Nat.eqb remaining 0 then
        rbnd (bounded_loop v is' 0) (fun r => rret (zero_var :: fst r, snd r))
      else
        let limit := Nat.min remaining B in
        rbnd (require (2 <=? limit)%nat) (fun _ =>
        rbnd (lift (bnd (new_variable F (limbs v).[i]) (fun o =>
                    bnd (range_check F o limit) (fun b => ret (o, b))))) (fun ob =>
        rbnd (bounded_loop v is' (remaining - limit)) (fun r =>
        rret (fst ob :: fst r, snd ob ++ snd r))))
  end.
Definition alloc_witness_bounded_total_bits (v : sim) (total : nat) : CR (simvar * list nat) :=
  rbnd (require (is_strict (red v))) (fun _ =>
  rbnd (bounded_loop v (seq 0 NUM_OF_LIMBS) total) (fun r =>
  rret (mkSimvar (mkSim (limbs v) (sval v) (if Nat.eqb total 253 then ByOne else red v)) (fst r), snd r))).

(** fr_mul_var.rs 45-57. *)
Definition add_row (a b o : nat) : gate F :=
  mkGate 1 0 1 0 0 0 0 0 0 0 0 0 1 a zero_var b zero_var o false None.
(** fr_mul_var.rs 31-61. *)
Definition mulvar_add (a b : simulvar) : CS F simulvar :=
  let v := simul_add (mv a) (mv b) in
  bnd (mapC (fun i => bnd (new_variable F (mlimbs v).[i]) (fun o =>
                      bnd (push_gate F (add_row (mvar a).{i} (mvar b).{i} o)) (fun _ => ret o))) (seq 0 NUM_OF_LIMBS_MUL)) (fun l =>
  ret (mkSimulvar v l)).
(** fr_mul_var.rs 64-102. *)
Definition mulvar_sub (a : simulvar) (b : simvar) : CR simulvar :=
  rbnd (of_res (simul_sub (mv a) (sv b))) (fun v =>
  lift (bnd (mapC (fun i => bnd (new_variable F (mlimbs v).[i]) (fun o =>
                            bnd (push_gate F (sub_row (pad4 i) (mvar a).{i} (svar b).{i} o)) (fun _ => ret o))) (seq 0 NUM_OF_LIMBS)) (fun l =>
        ret (mkSimulvar v (l ++ skipn NUM_OF_LIMBS (mvar a)))))).

(** fr_mul_var.rs 153-177: chunks of three. *)
Fixpoint rk_loop (rl : list F) (ks : list nat) (i : nat) (ls : list nat) (acc : nat) : CS F nat :=
  match ls with
  | [] => ret acc
  | [a] => linear_combine F acc ks.{i - a} zero_var zero_var 1 rl.[a] 0 0
  | [a; b] => linear_combine F acc ks.{i - a} ks.{i - b} zero_var 1 rl.[a] rl.[b] 0
  | a :: b :: c :: ls' =>
      bnd (linear_combine F acc ks.{i - a} ks.{i - b} ks.{i - c} 1 rl.[a] rl.[b] rl.[c]) (fun o =>
      rk_loop rl ks i ls' o)
  end.
(** fr_mul_var.rs 182-232: the grouped variables of both sides. *)
Definition group_var (a b : nat) : CS F nat := linear_combine F a zero_var b zero_var 1 0 (fofZ step) 0.
Fixpoint group_vars (l r : list nat) : CS F (list (nat * nat)) :=
  match l, r with
  | [a], [a'] => ret [(a, a')]
  | a :: b :: l', a' :: b' :: r' =>
      bnd (group_var a b) (fun o =>
      bnd (group_var a' b') (fun o' =>
      bnd (group_vars l' r') (fun os => ret ((o, o') :: os))))
  | _, _ => ret []
  end.
(** fr_mul_var.rs 282-298. *)
Definition carry_row (k s : F) (lv carry_in rv carry : nat) : gate F :=
  mkGate (- (1)) (- (1)) 1 s 0 0 k 0 0 0 0 0 0 lv carry_in rv carry zero_var false None.
(** fr_mul_var.rs 238-309, without the assertion of line 259 (see below). *)
Fixpoint carry_loop (gs : list (F * F * nat * (nat * nat))) (carry_in : F) (carry_in_var : nat) (extra : Z) : CS F unit :=
  match gs with
  | [] => ret tt
  | (lg, rg, n, (lv, rv)) :: gs' =>
      let carry := carry_of lg rg carry_in n in
      let e := (extra + toZ (fofZ (F := F) (pad n)))%Z in
      let e' := (e / shift n)%Z in
      bnd (new_variable F carry) (fun cv =>
      bnd (push_gate F (carry_row (- fofZ (pad n) + fofZ (e mod shift n)) (fofZ (shift n)) lv carry_in_var rv cv)) (fun _ =>
      bnd (match gs' with
           | [] => insert_constant_gate F cv (fofZ e')
           | _ => bnd (range_check F cv (surfeit + B * 2)) (fun _ => ret tt)
           end) (fun _ =>
      carry_loop gs' carry cv e')))
  end.
(** The width of limb [i] of [k]: fr_mul_var.rs 130-134. *)
Definition kwidth (i : nat) : nat := if Nat.eqb i (NUM_OF_LIMBS - 1) then (BIT_IN_TOP_LIMB P + 5)%nat else B.
(** fr_mul_var.rs 105-310.  The assertions of line 259 compare values that do not
    depend on the constraint system; they are evaluated first here. *)
Definition enforce_zero_gates (m : simulvar) (x : Z) (gs : list (F * F * nat)) : CS F unit :=
  let kl := limbs (sim_from (x / modulus P)) in
  let rl := map fofZ (modulus_limbs P) in
  bnd (mapC (fun i => bnd (new_variable F kl.[i]) (fun o =>
                      bnd (range_check F o (kwidth i)) (fun _ => ret o))) (seq 0 NUM_OF_LIMBS)) (fun ks =>
  bnd (mapC (fun i => rk_loop rl ks i (lefts i) zero_var) (seq 0 NUM_OF_LIMBS_MUL)) (fun rks =>
  bnd (group_vars (mvar m) rks) (fun vs =>
  carry_loop (combine gs vs) 0 zero_var 0))).
Definition var_enforce_zero (m : simulvar) : CR unit :=
  rbnd (require (prod_additions (mv m) <? 32)%Z) (fun _ =>
  rbnd (of_res (simul_into (mv m))) (fun x =>
  let gs := zip_groups (mlimbs (mv m)) (convolve (map fofZ (modulus_limbs P)) (limbs (sim_from (x / modulus P)))) in
  rbnd (require (forallb (fun g => (toZ (snd (fst g)) <? pad (snd g))%Z) gs)) (fun _ =>
  lift (enforce_zero_gates m x gs)))).
End Sim.
Arguments mkSim {F}. Arguments limbs {F}. Arguments sval {F}. Arguments red {F}.
Arguments mkSimul {F}. Arguments mlimbs {F}. Arguments mval {F}. Arguments prod_additions {F}.
Arguments mkSimvar {F}. Arguments sv {F}. Arguments svar {F}.
Arguments mkSimulvar {F}. Arguments mv {F}. Arguments mvar {F}.
Arguments sim_sub {F}. Arguments sim_mul {F}. Arguments simul_add {F}. Arguments simul_sub {F}.
Arguments is_zero {F}. Arguments sim_into {F}. Arguments simul_into {F}. Arguments enforce_zero {F}.
Arguments var_sub {F}. Arguments var_mul {F}. Arguments mulvar_add {F}. Arguments mulvar_sub {F}.
Arguments alloc_constant {F}. Arguments alloc_input {F}. Arguments alloc_witness {F}.
Arguments alloc_witness_bounded_total_bits {F}. Arguments var_enforce_zero {F}.
Arguments lift {F A}. Arguments rbnd {F A B}. Arguments rret {F A}. Arguments of_res {F A}. Arguments require {F}.
