(** Jubjub points in circuits: plonk/src/plonk/constraint_system/ecc.rs.
    [JubjubPoint] (algebra/src/jubjub.rs) wraps an external crate; it is modelled
    by its pair of affine coordinates, [add] by the addition law of the twisted
    Edwards curve, [double] by adding a point to itself and [get_identity] by
    [(0, 1)].  The field and the coefficient [d] are parameters; [edwards_d] and
    the last definitions instantiate them as the code does.  The index
    assertions of the gadgets hold for every index obtained from the same system
    and are not modelled; the assertions on lengths are. *)
From Coq Require Import List ZArith NArith Bool.
From Verif Require Import Base Field PField TurboModel Edwards UtilsModel.
Import ListNotations.
Local Open Scope F_scope.

Section Ecc.
Context (F : PField) (d : F).

(** ecc.rs 10-14 [PointVar], [ExtendedPointVar]. *)
Definition pvar : Type := (nat * nat)%type.
Definition point : Type := (F * F)%type.
Definition evar : Type := (pvar * point)%type.

(** ecc.rs 83-97 [compute_base_multiples]: the three lists. *)
Fixpoint multiples (p : point) (n : nat) : list (point * point * point) :=
  match n with
  | O => []
  | S n' =>
      let p2 := eadd d p p in
      let p3 := eadd d p2 p in
      (p, p2, p3) :: multiples (eadd d p2 p2) n'
  end.
Definition compute_base_multiples (base : point) (n : nat) : list point * list point * list point :=
  (map (fun t => fst (fst t)) (multiples base n), map (fun t => snd (fst t)) (multiples base n),
   map snd (multiples base n)).

(** ecc.rs 101-105. *)
Definition new_point_variable (p : point) : CS F pvar :=
  bnd (new_variable F (fst p)) (fun x => bnd (new_variable F (snd p)) (fun y => ret (x, y))).
(** ecc.rs 108-111. *)
Definition prepare_pi_point_variable (v : pvar) : CS F unit :=
  bnd (prepare_pi_variable F (fst v)) (fun _ => prepare_pi_variable F (snd v)).

(** ecc.rs 124-170 [insert_ecc_add_gate]. *)
Definition ecc_row (k : F) (a b c e o : nat) : gate F :=
  mkGate 0 0 0 0 1 1 0 k 0 0 0 0 1 a b c e o false None.
Definition insert_ecc_add_gate (p1 p2 out : pvar) : CS F unit :=
  bnd (push_gate F (ecc_row (- d) (fst p1) (snd p2) (fst p2) (snd p1) (fst out))) (fun _ =>
  push_gate F (ecc_row d (fst p1) (fst p2) (snd p1) (snd p2) (snd out))).

(** ecc.rs 173-189 [ecc_add]. *)
Definition ecc_add (p1 p2 : pvar) (e1 e2 : point) : CS F evar :=
  let e := eadd d e1 e2 in
  bnd (new_point_variable e) (fun out =>
  bnd (insert_ecc_add_gate p1 p2 out) (fun _ => ret (out, e))).

(** ecc.rs 202-258 [ecc_select]. *)
Definition select_row (k1 k2 m c : F) (b0 b1 o : nat) : gate F :=
  mkGate k1 k2 0 0 m 0 c 0 0 0 0 0 1 b0 b1 0%nat 0%nat o false None.
Definition ecc_select (g1 g2 g3 : point) (b0 b1 : nat) : CS F evar := fun s =>
  let e := match feqb (val s b0) 1, feqb (val s b1) 1 with
           | false, false => einf
           | true, false => g1
           | false, true => g2
           | true, true => g3
           end in
  bnd (new_point_variable e) (fun out =>
  bnd (push_gate F (select_row (fst g1) (fst g2) (fst g3 - (fst g1 + fst g2)) 0 b0 b1 (fst out))) (fun _ =>
  bnd (push_gate F (select_row (snd g1 - 1) (snd g2 - 1) (snd g3 + 1 - (snd g1 + snd g2)) 1 b0 b1 (snd out))) (fun _ =>
  ret (out, e)))) s.

(** ecc.rs 291-329 [scalar_mul_with_bases].  The bits are taken two at a time
    together with the three bases of their position. *)
Fixpoint pairs (l : list nat) : list (nat * nat) :=
  match l with a :: b :: l' => (a, b) :: pairs l' | _ => [] end.
Definition slot : Type := (point * point * point * (nat * nat))%type.
Definition select_slot (t : slot) : CS F evar :=
  let '(g1, g2, g3, (b0, b1)) := t in ecc_select g1 g2 g3 b0 b1.
Fixpoint mul_loop (acc : evar) (l : list slot) : CS F evar :=
  match l with
  | [] => ret acc
  | t :: l' =>
      bnd (select_slot t) (fun u =>
      bnd (ecc_add (fst acc) (fst u) (snd acc) (snd u)) (fun acc' => mul_loop acc' l'))
  end.
Definition scalar_mul_with_bases (bases : list point * list point * list point) (b : list nat) : res (CS F pvar) :=
  let '(bs1, bs2, bs3) := bases in
  let n := length b in
  if Nat.odd n || Nat.eqb n 0
     || negb (Nat.eqb (n / 2) (length bs1)) || negb (Nat.eqb (n / 2) (length bs2)) || negb (Nat.eqb (n / 2) (length bs3))
  then Panic
  else match combine (combine (combine bs1 bs2) bs3) (pairs b) with
       | [] => Panic
       | t :: l => Ok (bnd (select_slot t) (fun u => bnd (mul_loop u l) (fun r => ret (fst r))))
       end.

(** ecc.rs 263-275 [scalar_mul].  The range check happens first and its result
    has the length [n]; the second group of assertions therefore never fires, and
    the value returned in that case is irrelevant. *)
Definition scalar_mul (base : point) (v n : nat) : res (CS F pvar) :=
  if Nat.odd n || Nat.eqb n 0 then Panic
  else Ok (bnd (range_check F v n) (fun b =>
       match scalar_mul_with_bases (compute_base_multiples base (n / 2)) b with
       | Ok m => m
       | _ => ret (0%nat, 0%nat)
       end)).

End Ecc.

(** ecc.rs 73-77 [EDWARDS_D], and 138 [BLSScalar::from_bytes]. *)
Definition EDWARDS_D : list N :=
  [177; 62; 52; 214; 214; 95; 6; 1; 38; 157; 87; 55; 109; 127; 45; 41;
   212; 127; 189; 230; 7; 146; 253; 245; 72; 43; 250; 75; 231; 24; 147; 42]%N.
Definition edwards_d : BLS := fofN (le_value EDWARDS_D).
