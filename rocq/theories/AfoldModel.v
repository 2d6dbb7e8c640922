(** Model of address folding inside the circuit: api/src/anon_xfr/address_folding.rs
    177-581 [prove_address_folding_in_cs] and 584-620 [prepare_verifier_input], and
    of the inspector's state commitment of crypto/src/delegated_schnorr.rs 117-177.
    [F] is the field of the circuit, [K] the scalar field of secq256k1.  The
    comparison of the secret key with the curve order is [FoldModel.check_keys],
    the simulated arithmetic is [SimModel]. *)
From Coq Require Import List ZArith NArith Bool.
From Verif Require Import Base Field PField UtilsModel TurboModel RescueModel AxfrModel FoldModel SimModel.
Import ListNotations.

Section Afold.
Context (F K : PField) (P : rescue_instance F) (e : N).
Local Open Scope F_scope.
Notation S := secq256k1.
Notation "l .{ i }" := (nth i l zero_var) (at level 9, format "l .{ i }").

(** address_folding.rs 35-51 [AXfrAddressFoldingWitness], the parts the circuit
    reads: the coordinates of the public key, the bytes of the secret key, the first
    components of the inspector's randomizers, the hash randomizer, the inspection
    commitment, the first components of the responses, and the two challenges. *)
Record fold_witness := mkFw {
  fw_x : K; fw_y : K; fw_sk : list N; fw_rhos : list K; fw_r : F; fw_comm : F; fw_resp : list K; fw_beta : K; fw_lambda : K }.

(** [SimFr::from(&Into::<BigUint>::into(x))]. *)
Definition sim_of (x : K) : sim F := sim_from F S (toZ x).
(** address_folding.rs 374-382 and 591-595: the powers of lambda and their multiples. *)
Definition lambda_series (lambda : K) : list K := [1; lambda; lambda * lambda].
Definition beta_lambda_series (beta lambda : K) : list K := map (fun v => v * beta) (lambda_series lambda).
(** address_folding.rs 425-427 and 611-613.  Fewer than three responses panic. *)
Definition combined_response (resp : list K) (lambda : K) : res K :=
  match resp with
  | r0 :: r1 :: r2 :: _ => Ok (r0 + r1 * lambda + r2 * lambda * lambda)
  | _ => Panic
  end.

(** delegated_schnorr.rs 149 and address_folding.rs 485-488: [chunks(n)]. *)
Fixpoint chunks_fuel {A} (fuel n : nat) (l : list A) : list (list A) :=
  match fuel with
  | O => []
  | Datatypes.S f => match l with [] => [] | _ => firstn n l :: chunks_fuel f n (skipn n l) end
  end.
Definition chunks {A} (n : nat) (l : list A) : list (list A) := chunks_fuel (length l) n l.
(** delegated_schnorr.rs 147: BLSScalar::capacity() / BIT_PER_LIMB = 254 / 44. *)
Definition num_limbs_compressed : nat := 5.
(** delegated_schnorr.rs 150-157: the limbs of a chunk, packed. *)
Fixpoint packed (l : list F) : Z :=
  match l with [] => 0%Z | x :: l' => (toZ x + 2 ^ Z.of_nat (BIT_PER_LIMB S) * packed l')%Z end.
Definition compress (l : list F) : list F := map (fun ch => fofZ (packed ch)) (chunks num_limbs_compressed l).
(** delegated_schnorr.rs 163-165: [resize]; it never shortens. *)
Definition resized {A} (z : A) (l : list A) : list A :=
  l ++ repeat z ((length l - 1 + 2) / 3 * 3 + 1 - length l).
(** delegated_schnorr.rs 167-175. *)
Fixpoint absorb (h : F) (l : list F) : res F :=
  match l with
  | [] => Ok h
  | a :: b :: c :: l' => absorb (hash F P h a b c) l'
  | _ => Panic
  end.
Definition sponge (l : list F) : res F :=
  match l with
  | a :: b :: c :: d :: l' => absorb (hash F P a b c d) l'
  | _ => Panic
  end.
(** delegated_schnorr.rs 117-177: the commitment to the inspector's state, from the
    data and randomizers as integers. *)
Definition inspection_comm (data rhos : list Z) (r : F) : res F :=
  sponge (resized 0 (compress (flat_map (fun x => limbs (sim_from F S x)) (data ++ rhos)) ++ [r])).

(** address_folding.rs 584-620 [prepare_verifier_input]. *)
Definition prepare_verifier_input (comm : F) (resp : list K) (beta lambda : K) : res (list F) :=
  rmap (fun c =>
    comm :: flat_map (fun v => limbs (sim_of v)) (tl (lambda_series lambda)) ++
            flat_map (fun v => limbs (sim_of v)) (beta_lambda_series beta lambda) ++ limbs (sim_of c))
    (combined_response resp lambda).

(** ** The circuit *)
(** address_folding.rs 361-370. *)
Definition equal_all (l r : list nat) : CS F unit :=
  bnd (RescueModel.mapM F (fun p => equal F (fst p) (snd p)) (combine l r)) (fun _ => ret tt).
(** address_folding.rs 177-370, steps 1 to 4: the key scalars are those of the
    simulated elements.  The first assertion is line 225, the others 358-359. *)
Definition link_keys (pk : pk_v) (sk : sk_v) (w : fold_witness) : CR F (simvar F * simvar F * simvar F) :=
  rbnd (require (Nat.eqb (length (bits_of_bytes (fw_sk w))) (length (bits_of_bytes secp256k1_order_bytes)))) (fun _ =>
  rbnd (lift (check_keys F pk sk (fw_sk w) secp256k1_order_bytes)) (fun kb =>
  rbnd (alloc_witness S (sim_of (fw_x w))) (fun x =>
  rbnd (alloc_witness S (sim_of (fw_y w))) (fun y =>
  rbnd (alloc_witness S (sim_from F S (Z.of_N (le_value (fw_sk w))))) (fun s =>
  rbnd (require (Nat.eqb (length (snd x ++ snd y)) (length (fst kb)))) (fun _ =>
  rbnd (require (Nat.eqb (length (snd s)) (length (snd kb)))) (fun _ =>
  rbnd (lift (equal_all (snd x ++ snd y) (fst kb))) (fun _ =>
  rbnd (lift (equal_all (snd s) (snd kb))) (fun _ =>
  rret (fst x, fst y, fst s)))))))))).

(** address_folding.rs 384-432: allocations of step 5, in order. *)
Record schnorr_v := mkSv { v_l1 : simvar F; v_l2 : simvar F; v_b0 : simvar F; v_b1 : simvar F; v_b2 : simvar F;
  v_rx : simvar F; v_ry : simvar F; v_rs : simvar F; v_resp : simvar F }.
Definition alloc_schnorr (rx ry rs resp beta lambda : K) : CR F schnorr_v :=
  rbnd (lift (alloc_input (sim_of lambda))) (fun l1 =>
  rbnd (lift (alloc_input (sim_of (lambda * lambda)))) (fun l2 =>
  rbnd (lift (alloc_input (sim_of (1 * beta)))) (fun b0 =>
  rbnd (lift (alloc_input (sim_of (lambda * beta)))) (fun b1 =>
  rbnd (lift (alloc_input (sim_of (lambda * lambda * beta)))) (fun b2 =>
  rbnd (alloc_witness S (sim_of rx)) (fun vx =>
  rbnd (alloc_witness S (sim_of ry)) (fun vy =>
  rbnd (alloc_witness S (sim_of rs)) (fun vs =>
  rbnd (lift (alloc_input (sim_of resp))) (fun vr =>
  rret (mkSv l1 l2 b0 b1 b2 (fst vx) (fst vy) (fst vs) vr)))))))))).
(** address_folding.rs 434-456: the combined verification equation. *)
Definition schnorr_equation (x y s : simvar F) (v : schnorr_v) : CR F unit :=
  rbnd (lift (var_mul x (v_b0 v))) (fun lhs0 =>
  rbnd (lift (bnd (var_mul y (v_b1 v)) (fun m => mulvar_add m lhs0))) (fun lhs1 =>
  rbnd (lift (bnd (var_mul (v_ry v) (v_l1 v)) (fun m => mulvar_add m lhs1))) (fun lhs2 =>
  rbnd (lift (bnd (var_mul s (v_b2 v)) (fun m => mulvar_add m lhs2))) (fun lhs3 =>
  rbnd (lift (bnd (var_mul (v_rs v) (v_l2 v)) (fun m => mulvar_add m lhs3))) (fun lhs4 =>
  rbnd (var_sub S (v_resp v) (v_rx v)) (fun rhs =>
  rbnd (mulvar_sub S lhs4 rhs) (fun d =>
  var_enforce_zero S d))))))).

(** address_folding.rs 481-526: a chunk of limb variables, packed. *)
Definition step_pow (i : nat) : F := fofZ (2 ^ Z.of_nat (BIT_PER_LIMB S * i)).
Definition compress_chunk (l : list nat) : CS F nat :=
  bnd (linear_combine F l.{0} l.{1} l.{2} l.{3} 1 (step_pow 1) (step_pow 2) (step_pow 3)) (fun sum =>
  if Nat.eqb (length l) 5
  then linear_combine F sum l.{4} zero_var zero_var 1 (step_pow 4) 0 0
  else ret sum).
Definition compress_cs (l : list nat) : CS F (list nat) :=
  RescueModel.mapM F compress_chunk (chunks num_limbs_compressed l).
(** address_folding.rs 536-557. *)
Fixpoint absorb_cs (h : nat) (l : list nat) : CR F nat :=
  match l with
  | [] => rret h
  | a :: b :: c :: l' => rbnd (lift (hash_cs F P e h a b c)) (fun h' => absorb_cs h' l')
  | _ => fun _ => Panic
  end.
Definition sponge_cs (l : list nat) : CR F nat :=
  match l with
  | a :: b :: c :: d :: l' => rbnd (lift (hash_cs F P e a b c d)) (fun h => absorb_cs h l')
  | _ => fun _ => Panic
  end.
(** address_folding.rs 458-560, steps 6 and 7. *)
Definition check_comm (data rhos : list (simvar F)) (r comm : F) : CR F nat :=
  rbnd (lift (compress_cs (flat_map svar (data ++ rhos)))) (fun compressed =>
  rbnd (lift (new_variable F r)) (fun rv =>
  rbnd (lift (new_variable F comm)) (fun cv =>
  rbnd (sponge_cs (resized zero_var (compressed ++ [rv]))) (fun h =>
  rbnd (lift (equal F cv h)) (fun _ => rret cv))))).

(** The body without the declaration of public inputs; the variables to publish are
    returned.  With fewer than three randomizers or responses an index of
    address_folding.rs 425-455 panics. *)
Definition fold_body (pk : pk_v) (sk : sk_v) (w : fold_witness) : CR F (list nat) :=
  match fw_rhos w, combined_response (fw_resp w) (fw_lambda w) with
  | rx :: ry :: rs :: _, Ok resp =>
      rbnd (link_keys pk sk w) (fun k =>
      let '(x, y, s) := k in
      rbnd (alloc_schnorr rx ry rs resp (fw_beta w) (fw_lambda w)) (fun v =>
      rbnd (schnorr_equation x y s v) (fun _ =>
      rbnd (check_comm [x; y; s] [v_rx v; v_ry v; v_rs v] (fw_r w) (fw_comm w)) (fun cv =>
      rret (cv :: svar (v_l1 v) ++ svar (v_l2 v) ++ svar (v_b0 v) ++ svar (v_b1 v) ++ svar (v_b2 v) ++ svar (v_resp v))))))
  | _, _ => fun _ => Panic
  end.
(** address_folding.rs 562-578: the public inputs, in order; each element has its
    six limb variables. *)
Definition publish (l : list nat) : CS F unit :=
  bnd (RescueModel.mapM F (prepare_pi_variable F) l) (fun _ => ret tt).
Definition prove_address_folding_in_cs (pk : pk_v) (sk : sk_v) (w : fold_witness) : CR F unit :=
  rbnd (fold_body pk sk w) (fun l => lift (publish l)).
End Afold.
Arguments mkFw {F K}. Arguments fw_x {F K}. Arguments fw_y {F K}. Arguments fw_sk {F K}. Arguments fw_rhos {F K}. Arguments fw_r {F K}.
Arguments fw_comm {F K}. Arguments fw_resp {F K}. Arguments fw_beta {F K}. Arguments fw_lambda {F K}.
