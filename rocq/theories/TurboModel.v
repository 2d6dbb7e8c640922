(** Model of the TurboPLONK constraint system and its basic gadgets:
    plonk/src/plonk/constraint_system/turbo.rs.

    Representation.  The code keeps thirteen selector columns, five wiring columns
    and two index vectors; the model keeps one record per gate (a row of those
    columns), newest gate first, with a flag for membership in
    [boolean_constraint_indices] and the public variable for membership in
    [public_vars_constraint_indices].  The assertions that variable indices are
    below [num_vars] are not modelled as panics; where they matter they are
    hypotheses ([Inv]/[lt] in TurboSpec). *)
From Coq Require Import List ZArith Bool.
From Verif Require Import Base Field PField.
Import ListNotations.

(** A gate: turbo.rs 21-25 (selectors, wiring), 42-46 (index vectors), 768-803
    (the push_*_selector functions). *)
Record gate (F : Type) := mkGate {
  q1 : F; q2 : F; q3 : F; q4 : F;           (* push_add_selectors *)
  qm1 : F; qm2 : F;                         (* push_mul_selectors *)
  qc : F;                                   (* push_constant_selector *)
  qecc : F;                                 (* push_ecc_selector *)
  qh1 : F; qh2 : F; qh3 : F; qh4 : F;       (* push_rescue_selectors *)
  qo : F;                                   (* push_out_selector *)
  w1 : nat; w2 : nat; w3 : nat; w4 : nat; wo : nat;   (* wiring *)
  g_bool : bool;                            (* attach_boolean_constraint_to_gate *)
  g_pub : option nat;                       (* prepare_pi_variable *)
}.
Arguments mkGate {F}. Arguments q1 {F}. Arguments q2 {F}. Arguments q3 {F}. Arguments q4 {F}.
Arguments qm1 {F}. Arguments qm2 {F}. Arguments qc {F}. Arguments qecc {F}.
Arguments qh1 {F}. Arguments qh2 {F}. Arguments qh3 {F}. Arguments qh4 {F}. Arguments qo {F}.
Arguments w1 {F}. Arguments w2 {F}. Arguments w3 {F}. Arguments w4 {F}. Arguments wo {F}.
Arguments g_bool {F}. Arguments g_pub {F}.

Section Turbo.
Context (F : PField).
Local Open Scope F_scope.

(** turbo.rs 21-54; [witness] is the vector of values, [num_vars] its intended
    length (kept separately as in the code). *)
Record tcs := mkCs { grev : list (gate F); nvars : nat; wit : list F }.
Definition size (c : tcs) : nat := length (grev c).
Definition gates (c : tcs) : list (gate F) := rev (grev c).

(** turbo.rs 241-262 [new]. *)
Definition cs_new : tcs := mkCs [] 2 [0; 1].

(** A gadget transforms the system and returns variable indices. *)
Definition CS (A : Type) := tcs -> A * tcs.
Definition ret {A} (a : A) : CS A := fun c => (a, c).
Definition bnd {A B} (m : CS A) (f : A -> CS B) : CS B :=
  fun c => let (a, c') := m c in f a c'.

(** [self.witness[i]]. *)
Definition val (c : tcs) (i : nat) : F := nth i (wit c) 0.
Definition peek (i : nat) : CS F := fun c => (val c i, c).

(** turbo.rs 264-272. *)
Definition zero_var : nat := 0%nat.
Definition one_var : nat := 1%nat.

(** turbo.rs 350-362 [new_variable]. *)
Definition new_variable (v : F) : CS nat :=
  fun c => (nvars c, mkCs (grev c) (S (nvars c)) (wit c ++ [v])).

(** Pushing a row: the thirteen selectors, the wires, [finish_new_gate]
    (464-466, the non-debug version). *)
Definition push_gate (g : gate F) : CS unit :=
  fun c => (tt, mkCs (g :: grev c) (nvars c) (wit c)).

(** turbo.rs 275-302 [insert_lc_gate]. *)
Definition lc_row (a b c d o : nat) (k1 k2 k3 k4 : F) : gate F :=
  mkGate k1 k2 k3 k4 0 0 0 0 0 0 0 0 1 a b c d o false None.
Definition insert_lc_gate (a b c d o : nat) (k1 k2 k3 k4 : F) : CS unit :=
  push_gate (lc_row a b c d o k1 k2 k3 k4).

(** turbo.rs 304-326. *)
Definition insert_add_gate (l r o : nat) : CS unit := insert_lc_gate l r 0 0 o 1 1 0 0.
Definition insert_sub_gate (l r o : nat) : CS unit := insert_lc_gate l r 0 0 o 1 (- (1)) 0 0.

(** turbo.rs 329-347 [insert_mul_gate]. *)
Definition mul_row (l r o : nat) : gate F :=
  mkGate 0 0 0 0 1 0 0 0 0 0 0 0 1 l r 0%nat 0%nat o false None.
Definition insert_mul_gate (l r o : nat) : CS unit := push_gate (mul_row l r o).

(** turbo.rs 469-492 [linear_combine]. *)
Definition linear_combine (a b c d : nat) (k1 k2 k3 k4 : F) : CS nat :=
  fun s =>
  let v := val s a * k1 + val s b * k2 + val s c * k3 + val s d * k4 in
  bnd (new_variable v) (fun o => bnd (insert_lc_gate a b c d o k1 k2 k3 k4) (fun _ => ret o)) s.

(** turbo.rs 495-510 [add], [sub]; 513-516 [equal]; 519-525 [mul]; 529-531
    [insert_boolean_gate]. *)
Definition add (l r : nat) : CS nat := fun s =>
  bnd (new_variable (val s l + val s r)) (fun o => bnd (insert_add_gate l r o) (fun _ => ret o)) s.
Definition sub (l r : nat) : CS nat := fun s =>
  bnd (new_variable (val s l - val s r)) (fun o => bnd (insert_sub_gate l r o) (fun _ => ret o)) s.
Definition equal (l r : nat) : CS unit := insert_sub_gate l r zero_var.
Definition mul (l r : nat) : CS nat := fun s =>
  bnd (new_variable (val s l * val s r)) (fun o => bnd (insert_mul_gate l r o) (fun _ => ret o)) s.
Definition insert_boolean_gate (v : nat) : CS unit := insert_mul_gate v v v.

(** turbo.rs 727-729 [attach_boolean_constraint_to_gate]: marks the newest gate
    (with no gate the code underflows; the model changes nothing). *)
Definition mark (g : gate F) : gate F :=
  mkGate (q1 g) (q2 g) (q3 g) (q4 g) (qm1 g) (qm2 g) (qc g) (qecc g)
         (qh1 g) (qh2 g) (qh3 g) (qh4 g) (qo g) (w1 g) (w2 g) (w3 g) (w4 g) (wo g) true (g_pub g).
Definition attach_boolean : CS unit := fun c =>
  (tt, match grev c with [] => c | g :: l => mkCs (mark g :: l) (nvars c) (wit c) end).

(** turbo.rs 216-230 [compute_binary_le] applied to [to_bytes] of a value: its
    canonical representative's bits, padded or cut to [n] (lines 544-554). *)
Definition bit (z : Z) (i : nat) : F := if Z.testbit z (Z.of_nat i) then 1 else 0.
Fixpoint new_variables (vs : list F) : CS (list nat) :=
  match vs with
  | [] => ret []
  | v :: vs' => bnd (new_variable v) (fun i => bnd (new_variables vs') (fun l => ret (i :: l)))
  end.

(** turbo.rs 541-595 [range_check] for [n >= 2] (the code panics below 2).
    [hi] is the list of bit variables from the top; the loop consumes three per
    gate and stops with one to three left. *)
Fixpoint range_loop (m : nat) (acc : nat) (top : list nat) : CS (nat * list nat) :=
  match m, top with
  | S m', a :: b :: c :: rest =>
      bnd (linear_combine acc a b c (fofZ 8) (fofZ 4) (fofZ 2) (fofZ 1)) (fun acc' =>
      bnd attach_boolean (fun _ => range_loop m' acc' rest))
  | _, _ => ret (acc, top)
  end.
Definition range_check (v n : nat) : CS (list nat) := fun s =>
  bnd (new_variables (map (bit (toZ (val s v))) (seq 0 n))) (fun b =>
  match rev b with
  | [] => ret b
  | top :: rest =>
      bnd (insert_boolean_gate top) (fun _ =>
      bnd (range_loop ((n - 2) / 3) top rest) (fun r =>
      bnd (match snd r with
           | [b0] => insert_lc_gate (fst r) b0 0 0 v (fofZ 2) (fofZ 1) 0 0
           | [b1; b0] => insert_lc_gate (fst r) b1 b0 0 v (fofZ 4) (fofZ 2) (fofZ 1) 0
           | b2 :: b1 :: b0 :: _ => insert_lc_gate (fst r) b2 b1 b0 v (fofZ 8) (fofZ 4) (fofZ 2) (fofZ 1)
           | [] => insert_lc_gate (fst r) 0 0 0 v (fofZ 8) (fofZ 4) (fofZ 2) (fofZ 1)
           end) (fun _ =>
      bnd attach_boolean (fun _ => ret b))))
  end) s.

(** turbo.rs 601-627 [select]. *)
Definition select_row (v0 v1 b o : nat) : gate F :=
  mkGate 0 1 0 0 (- (1)) 1 0 0 0 0 0 0 1 b v0 b v1 o false None.
Definition select (v0 v1 b : nat) : CS nat := fun s =>
  bnd (new_variable (if f_dec (val s b) 0 then val s v0 else val s v1)) (fun o =>
  bnd (push_gate (select_row v0 v1 b o)) (fun _ => ret o)) s.

(** turbo.rs 645-667 [is_equal_or_not_equal]; [inv] of zero is an error replaced
    by zero. *)
Definition inv_or_zero (x : F) : F := if f_dec x 0 then 0 else finv x.
Definition is_equal_or_not_equal (l r : nat) : CS (nat * nat) :=
  bnd (sub l r) (fun diff =>
  bnd (peek diff) (fun d =>
  bnd (new_variable (inv_or_zero d)) (fun inv =>
  bnd (mul diff inv) (fun m =>
  bnd (sub one_var m) (fun e =>
  bnd (insert_mul_gate diff e zero_var) (fun _ => ret (e, m))))))).
(** turbo.rs 631-641. *)
Definition is_equal (l r : nat) : CS nat := bnd (is_equal_or_not_equal l r) (fun p => ret (fst p)).
Definition is_not_equal (l r : nat) : CS nat := bnd (is_equal_or_not_equal l r) (fun p => ret (snd p)).

(** turbo.rs 670-700 [insert_constant_gate], 703-724 [prepare_pi_variable]:
    a constant gate whose constant is supplied online. *)
Definition const_row (v : nat) (k : F) (p : option nat) : gate F :=
  mkGate 0 0 0 0 0 0 k 0 0 0 0 0 1 v v v v v false p.
Definition insert_constant_gate (v : nat) (k : F) : CS unit := push_gate (const_row v k None).
Definition prepare_pi_variable (v : nat) : CS unit := push_gate (const_row v 0 (Some v)).

(** turbo.rs 747-766 [pad]: rows of zero selectors and zero wires up to the next
    power of two (of a nonzero size; [0usize.next_power_of_two()] is 1). *)
Definition pad_row : gate F := mkGate 0 0 0 0 0 0 0 0 0 0 0 0 0 0%nat 0%nat 0%nat 0%nat 0%nat false None.
Definition next_power_of_two (n : nat) : nat := Nat.pow 2 (Nat.log2_up n).
Definition pad (c : tcs) : tcs :=
  mkCs (repeat pad_row (next_power_of_two (size c) - size c) ++ grev c) (nvars c) (wit c).

(** turbo.rs 116-153 [eval_gate_func] on five wire values and a public input. *)
Definition eval_gate (g : gate F) (a b c d o pi : F) : F :=
  q1 g * a + q2 g * b + q3 g * c + q4 g * d + qm1 g * (a * b) + qm2 g * (c * d)
  + qecc g * a * b * c * d * o
  + qh1 g * fpow a 5 + qh2 g * fpow b 5 + qh3 g * fpow c 5 + qh4 g * fpow d 5
  + (qc g + pi) - qo g * o.
(** turbo.rs 157-184 [eval_selector_multipliers], in selector order. *)
Definition selector_multipliers (a b c d o : F) : list F :=
  [a; b; c; d; a * b; c * d; 1; a * b * c * d * o; fpow a 5; fpow b 5; fpow c 5; fpow d 5; - o].
Definition selectors_of (g : gate F) : list F :=
  [q1 g; q2 g; q3 g; q4 g; qm1 g; qm2 g; qc g; qecc g; qh1 g; qh2 g; qh3 g; qh4 g; qo g].

(** turbo.rs 813-866 [verify_witness]: lengths, public values, gate equations.
    The boolean flags are not looked at (as in the code). *)
Fixpoint check_gates (w : list F) (gs : list (gate F)) (online : list F) : res unit :=
  match gs with
  | [] => Ok tt
  | g :: gs' =>
      match g_pub g with
      | Some v =>
          match online with
          | [] => Panic
          | pi :: online' =>
              if f_dec (nth v w 0) pi then
                if f_dec (eval_gate g (nth (w1 g) w 0) (nth (w2 g) w 0) (nth (w3 g) w 0)
                                      (nth (w4 g) w 0) (nth (wo g) w 0) pi) 0
                then check_gates w gs' online' else Err
              else Err
          end
      | None =>
          if f_dec (eval_gate g (nth (w1 g) w 0) (nth (w2 g) w 0) (nth (w3 g) w 0)
                                (nth (w4 g) w 0) (nth (wo g) w 0) 0) 0
          then check_gates w gs' online else Err
      end
  end.
Definition is_pub (g : gate F) : bool := match g_pub g with Some _ => true | None => false end.
Definition verify_witness (c : tcs) (w online : list F) : res unit :=
  if negb (Nat.eqb (length w) (nvars c)) then Err
  else if negb (Nat.eqb (length online) (length (filter is_pub (gates c)))) then Err
  else check_gates w (gates c) online.
End Turbo.

Arguments mkCs {F}. Arguments grev {F}. Arguments nvars {F}. Arguments wit {F}.
Arguments ret {F A}. Arguments bnd {F A B}. Arguments val {F}. Arguments size {F}. Arguments gates {F}.
Declare Scope cs_scope.
Delimit Scope cs_scope with cs.
Notation "x <- m ;; f" := (bnd m (fun x => f)) (at level 61, m at next level, right associativity) : cs_scope.
Notation "m ;; f" := (bnd m (fun _ => f)) (at level 61, right associativity) : cs_scope.
