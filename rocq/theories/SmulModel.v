(** Model of the proof that a public key is a secret multiple of the generator,
    crypto/src/bulletproofs/scalar_mul.rs.

    Representation and simplifications.
    - Constraint systems are those of [CmixModel] (the bulletproofs crate is not part of
      the repository); the commitments to the two coordinates and to the secret key are
      the first three variables. The cryptographic proof of the constraint system is not
      modelled.
    - [F] is the base field of the curve, which is the field of the constraint system.
      Points are pairs of coordinates. The dummy point [dx, dy] (lines 77-88: drawn from a
      generator seeded by a hash of a fixed string) and the list [pts] of the doubled
      generators (lines 156-164) are arguments.
    - Line 198 computes the sum of two points in the curve group; as the lines before it
      panic when the abscissas are equal, it is the chord rule of lines 194-195. The only
      exception is the point at infinity as public key, whose sum is dropped (line 177). *)
From Coq Require Import List Arith ZArith Bool.
From Verif Require Import Base Field PField CmixModel.
Import ListNotations.
Local Open Scope F_scope.

Section Smul.
Context {F : PField}.
Notation cs := (cs F).
Definition pt := (F * F)%type.
(** scalar_mul.rs 30-34 [PointVar]. *)
Record pvar := mkPvar { px : nat; py : nat }.
Definition alloc_opt (x : option F) (c : cs) : nat * cs := allocate (match x with Some x => x | None => 0 end) c.
(** scalar_mul.rs 42-51 [PointVar::allocate]. *)
Definition allocate_point (p : option pt) (c : cs) : pvar * cs :=
  let (x, c1) := alloc_opt (option_map fst p) c in
  let (y, c2) := alloc_opt (option_map snd p) c1 in
  (mkPvar x y, c2).

(** scalar_mul.rs 191-195: slope and sum; [unwrap] panics when the abscissas are equal. *)
Definition chord (l r : pt) : res (F * pt) :=
  if feqb (fst l - fst r) 0 then Panic
  else let s := (snd l - snd r) * finv (fst l - fst r) in
       let x := s * s - fst l - fst r in Ok (s, (x, s * (fst l - x) - snd l)).
(** scalar_mul.rs 184-215 [point_add_constant]. *)
Definition point_add_constant (lv : pvar) (left : option pt) (right : pt) (c : cs) : res (option pt * pvar * cs) :=
  bind (match left with Some l => rmap Some (chord l right) | None => Ok None end) (fun v =>
    let (s, c1) := alloc_opt (option_map fst v) c in
    let (r, c2) := allocate_point (option_map snd v) c1 in
    let '(_, _, sq, c3) := multiply (lvar s) (lvar s) c2 in
    let '(_, _, sd, c4) := multiply (lvar s) (lsub (lconst (fst right)) (lvar (px r))) c3 in
    let c5 := constrain (lsub (lsub (lsub (lvar sq) (lvar (px lv))) (lconst (fst right))) (lvar (px r))) c4 in
    let c6 := constrain (lsub (lsub (lvar sd) (lconst (snd right))) (lvar (py r))) c5 in
    Ok (option_map snd v, r, c6)).
(** scalar_mul.rs 217-245 [point_select]; [yes] and [no] are present when [bit] is. *)
Definition point_select (bv : nat) (bit : option bool) (yv : pvar) (yes : option pt) (nov : pvar) (no : option pt) (c : cs) : option pt * pvar * cs :=
  let res := match bit with Some true => yes | Some false => no | None => None end in
  let (r, c1) := allocate_point res c in
  let '(_, _, xd, c2) := multiply (lvar bv) (lsub (lvar (px yv)) (lvar (px nov))) c1 in
  let '(_, _, yd, c3) := multiply (lvar bv) (lsub (lvar (py yv)) (lvar (py nov))) c2 in
  let c4 := constrain (lsub (lsub (lvar (px r)) (lvar (px nov))) (lvar xd)) c3 in
  let c5 := constrain (lsub (lsub (lvar (py r)) (lvar (py nov))) (lvar yd)) c4 in
  (res, r, c5).

(** scalar_mul.rs 109-143: a bit and its complement. *)
Definition alloc_bit (b : option bool) (c : cs) : nat * cs :=
  let (x, y) := match b with Some true => (1, 0) | Some false => (0, 1) | None => (0, 0) end in
  let '(bv, nb, p, c1) := allocate_multiplier x y c in
  (bv, constrain (lsub (ladd (lvar bv) (lvar nb)) (lconst 1)) (constrain (lvar p) c1)).
Fixpoint alloc_bits (l : list (option bool)) (c : cs) : list nat * cs :=
  match l with
  | [] => ([], c)
  | b :: l' => let (v, c1) := alloc_bit b c in let (r, c2) := alloc_bits l' c1 in (v :: r, c2)
  end.
(** scalar_mul.rs 145-153: the sum of the bits, [m] being the multiplier. *)
Fixpoint weighted (m : F) (l : list nat) : lc F :=
  match l with [] => lconst 0 | v :: l' => ladd (lscale m (lvar v)) (weighted (m + m) l') end.
(** scalar_mul.rs 167-174: the additions. *)
Fixpoint add_points (l : list (option bool * nat * pt)) (cur : option pt) (cv : pvar) (c : cs) : res (option pt * pvar * cs) :=
  match l with
  | [] => Ok (cur, cv, c)
  | (bit, bv, p) :: l' =>
      bind (point_add_constant cv cur p c) (fun r =>
        let '(next, nv, c1) := r in
        let '(cur', cv', c2) := point_select bv bit nv next cv cur c1 in
        add_points l' cur' cv' c2)
  end.
(** 110: the bits of the canonical integer of the secret key, least significant first. *)
Definition bits_le (n : nat) (z : Z) : list bool := map (fun i => Z.testbit z (Z.of_nat i)) (seq 0 n).

(** scalar_mul.rs 67-182 [gadget], for [n = length pts] bits (256 in the code). [vals] is the prover's key pair. *)
Definition gadget (d : pt) (pts : list pt) (pk : pvar) (sk : nat) (vals : option (pt * F)) (c : cs) : res cs :=
  let cur := match vals with Some _ => Some d | None => None end in
  let (cv, c1) := allocate_point cur c in
  let c2 := constrain (lsub (lvar (py cv)) (lconst (snd d))) (constrain (lsub (lvar (px cv)) (lconst (fst d))) c1) in
  let bits := match vals with
              | Some (_, k) => map Some (bits_le (length pts) (toZ k))
              | None => repeat None (length pts) end in
  let (bv, c3) := alloc_bits bits c2 in
  let c4 := constrain (lsub (weighted 1 bv) (lvar sk)) c3 in
  bind (add_points (combine (combine bits bv) pts) cur cv c4) (fun r =>
    let '(_, cv', c5) := r in
    bind (point_add_constant pk (option_map fst vals) d c5) (fun q =>
      let '(_, rv, c6) := q in
      Ok (constrain (lsub (lvar (py cv')) (lvar (py rv))) (constrain (lsub (lvar (px cv')) (lvar (px rv))) c6)))).

(** scalar_mul.rs 251-318 [prove]: the prover's constraint system for the public key [pk] and the secret key [k]
    (the assertion of line 266, on the curve, is a hypothesis of the theorems), and 323-361 [verify]:
    the verifier's. The three commitments come first. *)
Definition system (d : pt) (pts : list pt) (vals : option (pt * F)) : res cs :=
  let (x, c1) := alloc_opt (option_map (fun v => fst (fst v)) vals) empty in
  let (y, c2) := alloc_opt (option_map (fun v => snd (fst v)) vals) c1 in
  let (k, c3) := alloc_opt (option_map snd vals) c2 in
  gadget d pts (mkPvar x y) k vals c3.
Definition prover_system d pts (pk : pt) (k : F) : res cs := system d pts (Some (pk, k)).
Definition verifier_system d pts : res cs := system d pts None.
(** scalar_mul.rs 323-342 [verify]: three commitments are read by index; more are ignored. *)
Definition verify_commitments {T} (commitments : list T) : res (T * T * T) :=
  match commitments with x :: y :: k :: _ => Ok (x, y, k) | _ => Panic end.
End Smul.
Arguments pt F : clear implicits.
