(** Model of the PLONK protocol: plonk/src/plonk/{helpers,transcript,indexer,prover,verifier}.rs
    over the TurboPLONK constraint system (constraint_system/turbo.rs) and the KZG scheme.

    Simplifications: the random generator is a stream [rnd] of field elements, consumed in
    the order of the code; the transcript is the list of messages; a challenge is a function
    of the transcript ([cdraw], with the group order whose roots the loop of transcript.rs
    41-47 avoids; the loop's exit condition is a hypothesis of the theorems that need it);
    [draw] is the unconditional challenge of the batched opening; vectors whose
    length the code fixes are read with a default (marked "in range"). *)
From Coq Require Import List Arith NArith Bool.
From Verif Require Import Base Field PField Power PolyModel KzgModel PermModel TurboModel.
Import ListNotations.
Local Open Scope F_scope.

Notation "'let!' x ':=' m 'in' f" := (bind m (fun x => f)) (at level 200, x name, m at level 100, f at level 200).

(** Indexing a vector. *)
Definition idx {A} (l : list A) (i : nat) : res A := match nth_error l i with Some a => Ok a | None => Panic end.

Section Columns.
Context {F : PField}.
(** turbo.rs 67-69 [wiring] and the flattening of constraint_system/mod.rs 59-62. *)
Definition wires (gs : list (gate F)) : list nat :=
  map w1 gs ++ map w2 gs ++ map w3 gs ++ map w4 gs ++ map wo gs.
(** turbo.rs 102-107 [selector]: the thirteen columns. *)
Definition selector_cols (gs : list (gate F)) : list (list F) :=
  [map q1 gs; map q2 gs; map q3 gs; map q4 gs; map qm1 gs; map qm2 gs; map qc gs; map qecc gs;
   map qh1 gs; map qh2 gs; map qh3 gs; map qh4 gs; map qo gs].
(** turbo.rs 90-96: constraint and witness indices of the public variables. *)
Fixpoint pub_from (i : nat) (gs : list (gate F)) : list (nat * nat) :=
  match gs with
  | [] => []
  | g :: gs' => match g_pub g with Some v => (i, v) :: pub_from (S i) gs' | None => pub_from (S i) gs' end
  end.
Definition pub_constraints (gs : list (gate F)) : list nat := map fst (pub_from 0 gs).
Definition pub_variables (gs : list (gate F)) : list nat := map snd (pub_from 0 gs).
(** turbo.rs 98-100 [boolean_constraint_indices], as the 0/1 vector of indexer.rs 289-292. *)
Definition bool_col (gs : list (gate F)) : list F := map (fun g => if g_bool g then 1 else 0) gs.
(** turbo.rs 74-80 [quot_eval_dom_size]. *)
Definition quot_eval_dom_size (n : nat) : nat := if Nat.ltb 8 n then n * 6 else n * 16.
(** turbo.rs 116-153 [eval_gate_func] on vectors. *)
Definition eval_gate_func (ws qs : list F) (pi : F) : res F :=
  match ws, qs with
  | [a; b; c; d; o], [s1; s2; s3; s4; m1; m2; kc; ec; h1; h2; h3; h4; so] =>
      Ok (eval_gate F (mkGate s1 s2 s3 s4 m1 m2 kc ec h1 h2 h3 h4 so 0 0 0 0 0 false None)%nat a b c d o pi)
  | _, _ => Err
  end.
(** turbo.rs 157-184 [eval_selector_multipliers] on a vector. *)
Definition eval_selector_multipliers (ws : list F) : res (list F) :=
  match ws with
  | a :: b :: c :: d :: o :: _ => Ok (selector_multipliers F a b c d o)
  | _ => Err
  end.
End Columns.

Section Plonk.
Context {F : PField} {G1 G2 GT : Mod F} (e : G1 -> G2 -> GT).
Context (gen : F) (order : N).
Context (draw : list (tmsg G1) -> F) (cdraw : nat -> list (tmsg G1) -> F).
Notation poly := (list F).
Notation transcript := (list (tmsg G1)).

(** ** helpers.rs *)
(** helpers.rs 16-29 [build_group]: [fuel] elements may still be pushed. *)
Fixpoint build_loop (fuel : nat) (generator current : F) : res (list F) :=
  if feqb current 1 then Ok [] else
  match fuel with
  | O => Err
  | S f => let! l := build_loop f generator (current * generator) in Ok (current :: l)
  end.
Definition build_group (generator : F) (max_elems : nat) : res (list F) :=
  let! l := build_loop (max_elems - 1) generator generator in Ok (1 :: l).

(** helpers.rs 124-147 [pi_poly]: [find_position], then interpolation. *)
Fixpoint find_position (i : nat) (pos : nat) (l : list nat) : option nat :=
  match l with [] => None | x :: l' => if Nat.eqb x i then Some pos else find_position i (S pos) l' end.
Definition pi_value (indices : list nat) (pi : list F) (i : nat) : res F :=
  match find_position i 0 indices with Some pos => idx pi pos | None => Ok 0 end.

(** helpers.rs 154-169 [hide_polynomial] with the blinding factors given. *)
Fixpoint hide_loop (blinds : list F) (i z : nat) (p : poly) : res poly :=
  match blinds with
  | [] => Ok p
  | b :: bs => let! p1 := add_coef p b i in let! p2 := add_coef p1 (fopp b) (z + i) in hide_loop bs (S i) z p2
  end.
Definition hide_polynomial (blinds : list F) (p : poly) (z : nat) : res poly := hide_loop blinds 0 z p.

(** indexer.rs 116-128 [encode_perm_to_group] for one value; helpers.rs 191-199 [p_of_x]
    (which multiplies by [k[0]] in the last case); group indices are in range. *)
Fixpoint enc_loop (pi n i : nat) (group : list F) (ks : list F) (other : F) : F :=
  match ks with
  | [] => other
  | ki :: ks' => if Nat.ltb pi ((i + 1) * n) && Nat.leb (i * n) pi then ki * nth (pi mod n) group 0 else enc_loop pi n (S i) group ks' other
  end.
Definition encode_perm (group ks : list F) (pi : nat) : F :=
  enc_loop pi (length group) 1 group (skipn 1 ks) (nth (pi mod length group) group 0).
Definition p_of_x (n : nat) (group ks : list F) (pi : nat) : F :=
  enc_loop pi n 1 group (skipn 1 ks) (nth 0 ks 0 * nth pi group 0).

(** helpers.rs 175-226 [z_poly]: the two products of row [i] (in range), the loop, the result. *)
Definition z_num (n : nat) (group ks w : list F) (beta gamma : F) (i : nat) : F :=
  fold_left (fun acc j => acc * (nth (j * n + i) w 0 + gamma + beta * (nth j ks 0 * nth i group 0))) (seq 0 5) 1.
Definition z_den (n : nat) (group ks w : list F) (perm : list nat) (beta gamma : F) (i : nat) : F :=
  fold_left (fun acc j => acc * (nth (j * n + i) w 0 + gamma + beta * p_of_x n group ks (nth (j * n + i) perm 0%nat))) (seq 0 5) 1.
Fixpoint z_loop (n : nat) (group ks w : list F) (perm : list nat) (beta gamma : F) (rows : list nat) (prev : F) : res (list F) :=
  match rows with
  | [] => Ok []
  | i :: rows' =>
      let d := z_den n group ks w perm beta gamma i in
      if feqb d 0 then Panic else
      let cur := prev * (z_num n group ks w beta gamma i * finv d) in
      let! l := z_loop n group ks w perm beta gamma rows' cur in Ok (cur :: l)
  end.
Definition z_poly (perm : list nat) (group ks w : list F) (beta gamma : F) : res poly :=
  let n := (length w / 5)%nat in
  if Nat.eqb n 0 then Panic else
  let! l := z_loop n group ks w perm beta gamma (seq 0 (n - 1)) 1 in Ok (from_coefs (1 :: l)).

(** ** indexer.rs *)
(** indexer.rs 92-113 [PlonkVerifierParams]. *)
Record vparams := mkVP {
  cm_q : list G1; cm_s : list G1; cm_qb : G1; vk_k : list F; vk_root : F; cs_size : nat;
  pub_idx : list nat; lag_consts : list F }.
(** indexer.rs 40-69 [PlonkProverParams] (without the two polynomials [l1_coefs] and [z_h_coefs],
    which nothing reads). *)
Record pparams := mkPP {
  q_polys : list poly; s_polys : list poly; qb_poly : poly; pk_vk : vparams; pk_group : list F;
  coset_quotient : list F; root_m : F; l1_coset : list F; z_h_inv_coset : list F;
  q_coset : list (list F); s_coset : list (list F); qb_coset : list F }.

(** indexer.rs 131-151 [choose_ks] on the stream of candidates; [exp] is (q-1)/2.  The code draws
    for ever, the model gives up when the candidates run out. *)
Fixpoint choose_loop (exp : N) (count : nat) (ks cands : list F) {struct cands} : option (list F) :=
  match count, cands with
  | O, _ => Some ks
  | S _, [] => None
  | S c', x :: cands' =>
      if negb (feqb x 0) && forallb (fun y => negb (feqb y x)) ks && negb (feqb (fpowN x exp) 1)
      then choose_loop exp c' (ks ++ [x]) cands' else choose_loop exp count ks cands'
  end.
Definition choose_ks (exp : N) (cands : list F) : option (list F) := choose_loop exp 4 [1] cands.

(** helpers.rs 653-662 [compute_lagrange_constant]; index in range, [inv] of zero panics. *)
Definition compute_lagrange_constant (group : list F) (base : nat) : res F :=
  let c := fold_left (fun acc i => if Nat.eqb i base then acc else acc * (nth base group 0 - nth i group 0))
             (seq 0 (length group)) 1 in
  if feqb c 0 then Panic else Ok (finv c).

(** indexer.rs 178-186, prover.rs 115-123: the Lagrange parameters are used only if they have
    the right size. *)
Definition usable (lag : option (kzg G1 G2)) (n : nat) : option (kzg G1 G2) :=
  match lag with Some l => if Nat.eqb (KzgModel.max_degree l + 1) n then Some l else None | None => None end.
(** Committing to a polynomial given by values on the group and by coefficients
    (indexer.rs 211-236, 241-265, 288-318). *)
Definition commit_column (k : kzg G1 G2) (lag : option (kzg G1 G2)) (evals : list F) (coefs : poly) : res G1 :=
  match lag with Some l => commit l (from_coefs evals) | None => commit k coefs end.
(** One column: interpolate, evaluate on the coset, commit. *)
Definition index_column (k : kzg G1 G2) (lag : option (kzg G1 G2)) (n m : nat) (root rootm k1 : F) (evals : list F) : res (poly * list F * G1) :=
  let! p := ffti root evals n in
  let! ev := coset_fft p rootm m k1 in
  let! c := commit_column k lag evals p in
  Ok (p, ev, c).

(** [PCS::Field::from(n as u32)], indexer.rs 263. *)
Definition from_u32 (n : nat) : F := fofN (N.of_nat n mod 2 ^ 32).
(** indexer.rs 165-340 [indexer_with_lagrange]; [ks] is the result of [choose_ks]. *)
Definition indexer (gs : list (gate F)) (num_vars : nat) (k : kzg G1 G2) (lag0 : option (kzg G1 G2)) (ks : list F) : res pparams :=
  let n := length gs in
  if Nat.eqb n 0 then Panic else
  let m := quot_eval_dom_size n in
  let factor := (m / n)%nat in
  if negb (Nat.eqb (n * factor) m) then Err else
  let lag := usable lag0 n in
  let! r := nth_root_of_unity gen order m in
  match r with
  | None => Err
  | Some rootm =>
      let! group_m := build_group rootm m in
      let! root := idx group_m (factor mod m) in
      let! group := build_group root n in
      let! k1 := idx ks 1 in
      let coset := map (fun x => k1 * x) group_m in
      let! perm := compute_permutation num_vars (wires gs) in
      let encoded := map (encode_perm group ks) perm in
      let! ss := mapM (fun i => index_column k lag n m root rootm k1 (firstn n (skipn (i * n) encoded))) (seq 0 5) in
      let! qs := mapM (index_column k lag n m root rootm k1) (selector_cols gs) in
      let! l1 := ffti root (PolyModel.set 0 (from_u32 n) (from_coefs (repeat 0 (length group)))) n in
      let! l1c := coset_fft l1 rootm m k1 in
      let! zhc := coset_fft (from_coefs (fopp 1 :: repeat 0 (n - 1) ++ [1])) rootm m k1 in
      let! zhi := mapM (fun x => if feqb x 0 then Panic else Ok (finv x)) zhc in
      let! lcs := mapM (compute_lagrange_constant group) (pub_constraints gs) in
      let! qb := index_column k lag n m root rootm k1 (bool_col gs) in
      Ok (mkPP (map (fun x => fst (fst x)) qs) (map (fun x => fst (fst x)) ss) (fst (fst qb))
            (mkVP (map snd qs) (map snd ss) (snd qb) ks root n (pub_constraints gs) lcs)
            group coset rootm l1c zhi (map (fun x => snd (fst x)) qs) (map (fun x => snd (fst x)) ss) (snd (fst qb)))
  end.

(** ** transcript.rs *)
(** transcript.rs 8-30 [transcript_init_plonk]. *)
Definition tr_init (t : transcript) (vk : vparams) (pi : list F) : transcript :=
  t ++ [TDomain 0; TSize (cs_size vk); TFieldSize] ++ map TComm (cm_q vk) ++ map TComm (cm_s vk)
    ++ [TElem (vk_root vk)] ++ map TElem (vk_k vk) ++ map TElem pi.
(** transcript.rs 33-48, labels alpha 0, beta 1, gamma 2, zeta 3, u 4. *)
Definition get (group_order : nat) (t : transcript) (label : nat) : F * transcript :=
  (cdraw group_order (t ++ [TDrawn label]), t ++ [TDrawn label]).

(** indexer.rs 11-33 [PlonkProof]. *)
Record proof := mkPf {
  pf_w : list G1; pf_t : list G1; pf_z : G1;
  ev_w : list F; ev_zw : F; ev_s : list F; open_z : G1; open_zw : G1 }.

(** The challenges (helpers.rs 33-121). *)
Record chals := mkCh { beta : F; gamma : F; alpha : F; zeta : F; u : F }.
(** verifier.rs 106-143 [compute_challenges]: the five challenges and the transcript. *)
Definition compute_challenges (t : transcript) (group_order : nat) (pf : proof) : chals * transcript :=
  let t1 := t ++ map TComm (pf_w pf) in
  let (b, t2) := get group_order t1 1 in
  let (g, t3) := get group_order t2 2 in
  let (a, t4) := get group_order (t3 ++ [TComm (pf_z pf)]) 0 in
  let (z, t5) := get group_order (t4 ++ map TComm (pf_t pf)) 3 in
  let (u, t6) := get group_order (t5 ++ map TElem (ev_w pf) ++ map TElem (ev_s pf) ++ [TElem (ev_zw pf)]) 4 in
  (mkCh b g a z u, t6).

(** helpers.rs 744-755 [first_lagrange_poly]; [inv] of zero panics. *)
Definition first_lagrange (n : nat) (z : F) : res (F * F) :=
  let zh := pow_limbs z [N.of_nat n] - 1 in
  if feqb (z - 1) 0 then Panic else Ok (zh, zh * finv (z - 1)).
(** helpers.rs 599-622 [eval_pi_poly] (and 628-650, the same sum in parallel). *)
Fixpoint eval_pi_loop (root : F) (z : F) (is : list nat) (pi lcs : list F) (acc : F) : res F :=
  match is, pi, lcs with
  | i :: is', p :: pi', l :: lcs' =>
      let d := z - pow_limbs root [N.of_nat i] in
      if feqb d 0 then Panic else eval_pi_loop root z is' pi' lcs' (acc + l * finv d * p)
  | _, _, _ => Ok acc
  end.
Definition eval_pi_poly (vk : vparams) (pi : list F) (zh z : F) : res F :=
  let! v := eval_pi_loop (vk_root vk) z (pub_idx vk) pi (lag_consts vk) 0 in Ok (v * zh).

(** The product over all but the last wire (helpers.rs 373-380, 677-682); [len - 1]
    underflows on an empty vector, a missing [s] panics. *)
Fixpoint s_factors (ch : chals) (ws ss : list F) (acc : F) : res F :=
  match ws with
  | [] => Panic
  | [_] => Ok acc
  | w :: ws' =>
      match ss with [] => Panic | s :: ss' => s_factors ch ws' ss' (acc * (w + beta ch * s + gamma ch)) end
  end.
(** helpers.rs 518-523: the product over all wires. *)
Fixpoint k_factors (ch : chals) (ws ks : list F) (acc : F) : res F :=
  match ws with
  | [] => Ok acc
  | w :: ws' =>
      match ks with [] => Panic | k :: ks' => k_factors ch ws' ks' (acc * (w + k * (beta ch * zeta ch) + gamma ch)) end
  end.
(** helpers.rs 665-689 [r_eval_zeta]. *)
Definition r_eval_zeta (ch : chals) (pf : proof) (pi l1 : F) : res F :=
  let! t1 := s_factors ch (ev_w pf) (ev_s pf) (alpha ch * ev_zw pf) in
  let! wl := idx (ev_w pf) (length (ev_w pf) - 1) in
  Ok (t1 * (wl + gamma ch) + l1 * (alpha ch * alpha ch) - pi).

(** helpers.rs 339-403 [r_poly_or_comm] (sequential version), for polynomials and for
    commitments: [X] with its addition, subtraction and product by a scalar. *)
Section RPoly.
Context {X : Type} (xadd xsub : X -> X -> X) (xmul : X -> F -> X).
Fixpoint q_terms (ws : list F) (qs : list X) (l : X) {struct qs} : res X :=
  match qs with
  | [] => Ok l
  | q :: qs' => match ws with [] => Panic | w :: ws' => q_terms ws' qs' (xadd l (xmul q w)) end
  end.
Fixpoint t_terms (factor : F) (ts : list X) (exponent : F) (l : X) : X :=
  match ts with [] => l | t :: ts' => t_terms factor ts' (exponent * factor) (xadd l (xmul t exponent)) end.
Definition r_combine (w : list F) (qs : list X) (qb : X) (ks : list F) (s_last z : X) (ws ss : list F) (zw : F)
    (ch : chals) (ts : list X) (l1 zh : F) (n_t : nat) : res X :=
  match qs, w, ts with
  | q0 :: qs', w0 :: w', t0 :: ts' =>
      let a := alpha ch in
      let a2 := a * a in let a3 := a2 * a in let a4 := a3 * a in let a5 := a4 * a in
      let! l := q_terms w' qs' (xmul q0 w0) in
      let! zk := k_factors ch ws ks a in
      let l := xadd l (xmul z (zk + l1 * a2)) in
      let! sl := s_factors ch ws ss (a * (zw * beta ch)) in
      let l := xsub l (xmul s_last sl) in
      let! w1 := idx w 1 in let! w2 := idx w 2 in let! w3 := idx w 3 in
      let l := xadd l (xmul qb (w1 * (w1 - 1) * a3 + w2 * (w2 - 1) * a4 + w3 * (w3 - 1) * a5)) in
      let factor := pow_limbs (zeta ch) [N.of_nat n_t] in
      Ok (xsub l (t_terms factor ts' (zh * factor) (xmul t0 zh)))
  | _, _, _ => Panic
  end.
End RPoly.
(** helpers.rs 532-561 [r_poly], 564-593 [r_commitment]; [s_polys[4]], [cm_s_vec[4]]. *)
Definition r_poly (pk : pparams) (z : poly) (ws ss : list F) (zw : F) (ch : chals) (ts : list poly) (l1 zh : F) (n_t : nat) : res poly :=
  let! w := unwrap (eval_selector_multipliers ws) in
  let! sl := idx (s_polys pk) 4 in
  r_combine PolyModel.add PolyModel.sub PolyModel.mul_scalar w (q_polys pk) (qb_poly pk) (vk_k (pk_vk pk)) sl z ws ss zw ch ts l1 zh n_t.
Definition r_commitment (vk : vparams) (cm_z : G1) (ws ss : list F) (zw : F) (ch : chals) (ts : list G1) (l1 zh : F) (n_t : nat) : res G1 :=
  let! w := unwrap (eval_selector_multipliers ws) in
  let! sl := idx (cm_s vk) 4 in
  r_combine madd msub (fun c x => smul x c) w (cm_q vk) (cm_qb vk) (vk_k vk) sl cm_z ws ss zw ch ts l1 zh n_t.

(** ** verifier.rs 17-104 [verifier] *)
Definition verifier (t : transcript) (k : kzg G1 G2) (size : nat) (vk : vparams) (pi : list F) (pf : proof) : res unit :=
  let (ch, t1) := compute_challenges (tr_init t vk pi) size pf in
  let! zl := first_lagrange (cs_size vk) (zeta ch) in
  let! piz := eval_pi_poly vk pi (fst zl) (zeta ch) in
  let! r := r_eval_zeta ch pf piz (snd zl) in
  let! cm_r := r_commitment vk (pf_z pf) (ev_w pf) (ev_s pf) (ev_zw pf) ch (pf_t pf) (snd zl) (fst zl) (cs_size vk + 2) in
  let commitments := pf_w pf ++ firstn 4 (cm_s vk) ++ [cm_r] in
  let values := ev_w pf ++ ev_s pf ++ [r] in
  let '(comm, v, _) := batch draw t1 commitments (cs_size vk + 2) (zeta ch) values in
  batch_verify_diff_points e k [comm; pf_z pf] [zeta ch; zeta ch * vk_root vk] [v; ev_zw pf] [open_z pf; open_zw pf] (u ch).

(** ** prover.rs *)
(** helpers.rs 229-336 [t_poly]: the numerator at one point of the coset times the inverse of
    the vanishing polynomial there; vectors in range. *)
Definition t_point (pk : pparams) (wc : list (list F)) (pic zc : list F) (b g a : F) (factor m point : nat) : res F :=
  let at_ (l : list F) := nth point l 0 in
  let ks := vk_k (pk_vk pk) in
  let! term1 := eval_gate_func (map at_ wc) (map at_ (q_coset pk)) (at_ pic) in
  let term2 := fold_left (fun acc j => acc * (at_ (nth j wc []) + g + b * (nth j ks 0 * at_ (coset_quotient pk)))) (seq 0 5) (a * at_ zc) in
  let term3 := fold_left (fun acc ws => acc * (at_ (fst ws) + g + b * at_ (snd ws))) (combine wc (s_coset pk)) (a * nth ((point + factor) mod m) zc 0) in
  let term4 := a * a * at_ (l1_coset pk) * (at_ zc - 1) in
  let qb := at_ (qb_coset pk) in
  let w1 := at_ (nth 1 wc []) in let w2 := at_ (nth 2 wc []) in let w3 := at_ (nth 3 wc []) in
  let term5 := a * a * a * qb * w1 * (w1 - 1) in
  let term6 := a * a * a * a * qb * w2 * (w2 - 1) in
  let term7 := a * a * a * a * a * qb * w3 * (w3 - 1) in
  Ok ((term1 + term2 + (term4 - term3) + term5 + term6 + term7) * at_ (z_h_inv_coset pk)).
Definition t_poly (pk : pparams) (n : nat) (ws : list poly) (z : poly) (b g a : F) (pi : poly) : res poly :=
  let m := quot_eval_dom_size n in
  let factor := (m / n)%nat in
  if negb (Nat.eqb (n * factor) m) then Err else
  let! k1 := idx (vk_k (pk_vk pk)) 1 in
  let! wc := mapM (fun p => coset_fft p (root_m pk) m k1) ws in
  let! pic := coset_fft pi (root_m pk) m k1 in
  let! zc := coset_fft z (root_m pk) m k1 in
  let! ts := mapM (t_point pk wc pic zc b g a factor m) (seq 0 m) in
  if feqb k1 0 then Err else coset_ffti (root_m pk) ts (finv k1) m.

(** helpers.rs 692-740 [split_t_and_commit]: [t] is what is left, [i] counts down to the
    last chunk, [prev] the previous random coefficient; an empty chunk of size 0 is resized. *)
Fixpoint split_t (t : poly) (n : nat) (rands : list F) (prev : F) : list poly :=
  match rands with
  | [] => []
  | [r] => [from_coefs (match t with [] => [fopp prev] | c :: t' => c - prev :: t' end)]
  | r :: rands' =>
      let chunk := firstn n t in
      let padded := chunk ++ repeat 0 (n + 1 - length chunk) in
      let bumped := match PolyModel.set n (nth n padded 0 + r) padded with [] => [] | c :: l => c - prev :: l end in
      from_coefs bumped :: split_t (skipn n t) n rands' r
  end.

(** prover.rs 88-299 [prover_with_lagrange] ([is_verifier_only] systems are not modelled). *)
Definition prover (rnd : nat -> F) (t0 : transcript) (k : kzg G1 G2) (lag0 : option (kzg G1 G2))
    (gs : list (gate F)) (num_vars : nat) (pk : pparams) (w : list F) : res proof :=
  let n := length gs in
  let vk := pk_vk pk in
  let! online := mapM (idx w) (pub_variables gs) in
  let t := tr_init t0 vk online in
  let lag := usable lag0 n in
  let! ext := extend_witness (wires gs) w in
  let! pis := mapM (pi_value (pub_idx vk) online) (seq 0 (length (pk_group pk))) in
  let! pi := ffti (vk_root vk) pis (cs_size vk) in
  (* 1 *)
  let! wcs := mapM (fun i =>
      let evals := firstn n (skipn (i * n) ext) in
      let blinds := [rnd (2 * i); rnd (2 * i + 1)]%nat in
      let! p0 := ffti (vk_root vk) evals n in
      let! p := hide_polynomial blinds p0 n in
      let! c := match lag with
                | Some l => let! c0 := commit l (from_coefs evals) in apply_blind_factors k c0 blinds n
                | None => commit k p end in
      Ok (p, c)) (seq 0 5) in
  let ws := map fst wcs in
  let cm_ws := map snd wcs in
  (* 2 *)
  let (b, t2) := get n (t ++ map TComm cm_ws) 1 in
  let (g, t3) := get n t2 2 in
  (* 3 *)
  let! perm := compute_permutation num_vars (wires gs) in
  let! z_evals := z_poly perm (pk_group pk) (vk_k vk) ext b g in
  let! z0 := ffti (vk_root vk) z_evals n in
  let zblinds := [rnd 10; rnd 11; rnd 12]%nat in
  let! z := hide_polynomial zblinds z0 n in
  let! cm_z := match lag with
               | Some l => let! c0 := commit l z_evals in apply_blind_factors k c0 zblinds n
               | None => commit k z end in
  (* 4 *)
  let (a, t4) := get n (t3 ++ [TComm cm_z]) 0 in
  (* 5 *)
  let! tp := t_poly pk n ws z b g a pi in
  let ts := split_t tp (n + 2) [rnd 13; rnd 14; rnd 15; rnd 16; rnd 17]%nat 0 in
  let! cm_ts := mapM (commit k) ts in
  (* 6 *)
  let (x, t5) := get n (t4 ++ map TComm cm_ts) 3 in
  (* 7 *)
  let we := map (fun p => eval p x) ws in
  let se := map (fun p => eval p x) (firstn 4 (s_polys pk)) in
  let xw := vk_root vk * x in
  let zw := eval z xw in
  (* 8 *)
  let (v, t6) := get n (t5 ++ map TElem we ++ map TElem se ++ [TElem zw]) 4 in
  let! zl := first_lagrange n x in
  let! r := r_poly pk z we se zw (mkCh b g a x v) ts (snd zl) (fst zl) (n + 2) in
  let! oz := batch_prove draw k t6 (ws ++ firstn 4 (s_polys pk) ++ [r]) x (n + 2) in
  let! ozw := prove k z xw (n + 2) in
  Ok (mkPf cm_ws cm_ts cm_z we zw se (fst oz) ozw).
End Plonk.
Arguments vparams {F} G1. Arguments pparams {F} G1. Arguments proof {F} G1. Arguments mkPf {F G1}. Arguments mkVP {F G1}. Arguments mkPP {F G1}.
