(** Model of the linear sigma protocol and its two uses
    (crypto/src/basic/matrix_sigma.rs, pedersen_elgamal.rs, chaum_pedersen.rs), of
    ElGamal encryption (elgamal.rs) and of the delegated Schnorr protocol
    (crypto/src/delegated_schnorr.rs).

    Representation and simplifications.
    - A group of prime order is a vector space [G] over its scalar field [F]; [B] and
      [H] are the two Pedersen generators (pedersen_comm.rs 20-53).  [B] is also the
      base point (bulletproofs' PedersenGens::default takes the Ristretto base point).
    - A Merlin transcript is the list of the messages appended so far, and a
      challenge is an arbitrary function [chal] of that list.  Labels that are always
      the same for a kind of message are not repeated; domain strings are numbers.
      Drawing a challenge changes the transcript ([Drawn]).
    - A random generator is the stream of the scalars it will return.
    - Multi-exponentiations are sums of scalar multiples (see C31, C32). *)
From Coq Require Import List NArith Bool.
From Verif Require Import Base Field.
Import ListNotations.
Local Open Scope F_scope.

Section Sigma.
Context {F : Field} {G : Mod F}.

(** ** Transcripts and random streams *)
Inductive ev := Tag (n : N) | Num (n : N) | Elem (g : G) | Com (g : G) | Scal (x : F) | Other (n : N) | Drawn.
Definition transcript := list ev.
Definition oracle := transcript -> F.
Definition rng := nat -> F.
Definition skipr (k : nat) (g : rng) : rng := fun n => g (k + n)%nat.

(** matrix_sigma.rs 25-42 [init_sigma] without scalars; 43-51 the appends; 52-58
    [get_challenge]; 61-63 [init_sigma_protocol]. *)
Definition init_sigma (name : N) (elems : list G) (t : transcript) : transcript :=
  t ++ [Tag 0; Tag name] ++ map Elem elems.
Definition get_challenge (chal : oracle) (t : transcript) : F * transcript := (chal t, t ++ [Drawn]).
Definition init_sigma_protocol (elems : list G) (t : transcript) : transcript := init_sigma 1 elems t.

(** matrix_sigma.rs 65-71 [sample_blindings]. *)
Definition sample_blindings (n : nat) (g : rng) : list F * rng := (map g (seq 0 n), skipr n g).

(** ** Proofs *)
(** matrix_sigma.rs 93-98 [SigmaProof]. *)
Record sigma_proof := mkSigma { s_coms : list G; s_resps : list F }.

(** matrix_sigma.rs 81-88: one proof commitment; [elems[i]] panics out of range. *)
Definition row_sum (elems : list G) (row : list nat) (sc : list F) : res G :=
  fold_left (fun acc ib => bind acc (fun a =>
    match nth_error elems (fst ib) with Some e => Ok (a + snd ib *: e)%M | None => Panic end))
    (combine row sc) (Ok m0).
(** matrix_sigma.rs 73-91 [compute_proof_commitments]. *)
Fixpoint proof_commitments (t : transcript) (blindings : list F) (elems : list G) (lhs : list (list nat)) : res (list G * transcript) :=
  match lhs with
  | [] => Ok ([], t)
  | row :: lhs' =>
      if negb (Nat.eqb (length row) (length blindings)) then Panic else
      bind (row_sum elems row blindings) (fun c =>
      bind (proof_commitments (t ++ [Com c]) blindings elems lhs') (fun r => Ok (c :: fst r, snd r)))
  end.
(** matrix_sigma.rs 100-125 [sigma_prove]; also returns the transcript and generator. *)
Definition sigma_prove (chal : oracle) (t : transcript) (g : rng) (elems : list G) (lhs : list (list nat)) (secrets : list F)
  : res (sigma_proof * transcript * rng) :=
  let t1 := init_sigma_protocol elems t in
  let (blindings, g1) := sample_blindings (length secrets) g in
  bind (proof_commitments t1 blindings elems lhs) (fun ct =>
  let (c, t2) := get_challenge chal (snd ct) in
  Ok (mkSigma (fst ct) (map (fun sb => fst sb * c + snd sb) (combine secrets blindings)), t2, g1)).

(** ** Verification *)
(** [iter_mut().enumerate()] *)
Fixpoint mapi (k : nat) (f : nat -> F -> F) (l : list F) : list F :=
  match l with [] => [] | x :: l' => f k x :: mapi (S k) f l' end.
(** matrix_sigma.rs 143-154: the loop over the rows.  The vector [s] is kept in its
    two pieces, the [n_elems] first entries and the entries of the proof
    commitments; every row draws one [alpha]. *)
Fixpoint rows_pass (j : nat) (lhs : list (list nat)) (resps : list F) (g : rng) (s : list F * list F) : (list F * list F) * list F :=
  match lhs with
  | [] => (s, [])
  | row :: lhs' =>
      let alpha := g 0%nat in
      let se := mapi 0 (fun i x => fold_left (fun x kr => if Nat.eqb i (fst kr) then x + alpha * snd kr else x) (combine row resps) x) (fst s) in
      let sc := mapi 0 (fun i x => if Nat.eqb i j then x - alpha else x) (snd s) in
      let r := rows_pass (S j) lhs' resps (skipr 1 g) (se, sc) in
      (fst r, alpha :: snd r)
  end.
(** matrix_sigma.rs 128-163 [collect_multi_exp_scalars]. *)
Definition collect_scalars (g : rng) (n_elems : nat) (lhs : list (list nat)) (rhs : list nat) (resps : list F) (c : F) : list F :=
  let r := rows_pass 0 lhs resps g (repeat 0 n_elems, repeat 0 (length rhs)) in
  let se := fold_left (fun se ka => mapi 0 (fun i x => if Nat.eqb i (fst ka) then x - snd ka * c else x) se)
              (combine rhs (snd r)) (fst (fst r)) in
  se ++ snd (fst r).
(** matrix_sigma.rs 165-192 [sigma_verify_scalars]; also returns the transcript. *)
Definition sigma_verify_scalars (chal : oracle) (t : transcript) (g : rng) (elems : list G) (lhs : list (list nat)) (rhs : list nat)
  (p : sigma_proof) : res (list F * transcript * rng) :=
  if negb (Nat.eqb (length lhs) (length rhs)) then Panic else
  if negb (Nat.eqb (length rhs) (length (s_coms p))) then Panic else
  let t1 := init_sigma_protocol elems t ++ map Com (s_coms p) in
  let (c, t2) := get_challenge chal t1 in
  Ok (collect_scalars g (length elems) lhs rhs (s_resps p) c, t2, skipr (length lhs) g).
Definition multi_exp (s : list F) (e : list G) : G := msum (map (fun xe => (fst xe *: snd xe)%M) (combine s e)).
(** matrix_sigma.rs 194-221 [sigma_verify]. *)
Definition sigma_verify (chal : oracle) (t : transcript) (g : rng) (elems : list G) (lhs : list (list nat)) (rhs : list nat)
  (p : sigma_proof) : res unit :=
  bind (sigma_verify_scalars chal t g elems lhs rhs p) (fun r =>
  if meqb (multi_exp (fst (fst r)) (elems ++ s_coms p)) m0 then Ok tt else Err).

Context (B H : G).

(** ** ElGamal *)
(** elgamal.rs 14-22, 46-54 (secret key given), 56-67, 69-81, 83-89. *)
Definition ctext := (G * G)%type.
Definition elgamal_pk (sk : F) : G := (sk *: B)%M.
Definition elgamal_encrypt (m r : F) (pk : G) : ctext := ((r *: B)%M, (m *: B + r *: pk)%M).
Definition elgamal_verify (m : F) (c : ctext) (sk : F) : res unit :=
  if meqb (m *: B + sk *: fst c)%M (snd c) then Ok tt else Err.
Definition elgamal_partial_decrypt (c : ctext) (sk : F) : G := (snd c - sk *: fst c)%M.

(** ** Equality of a Pedersen commitment and an ElGamal ciphertext *)
(** pedersen_elgamal.rs 12-26 [PedersenElGamalEqProof]. *)
Record pe_proof := mkPe { pe_z1 : F; pe_z2 : F; pe_e1 : ctext; pe_c1 : G }.
(** pedersen_elgamal.rs 28-50 [init_pedersen_elgamal_transcript]. *)
Definition init_pe_transcript (t : transcript) (pk : G) (cts : list ctext) (coms : list G) : transcript :=
  init_sigma 2 ([B; H; pk] ++ flat_map (fun c => [fst c; snd c]) cts ++ coms) t.
(** pedersen_elgamal.rs 53-78 [init_pok_pedersen_elgamal]. *)
Definition pe_elems (pk : G) (ct : ctext) (com : G) : list G := [m0; B; H; pk; fst ct; snd ct; com].
Definition pe_lhs : list (list nat) := [[0; 1]; [1; 3]; [1; 2]]%nat.
Definition pe_rhs : list nat := [4; 5; 6]%nat.
(** pedersen_elgamal.rs 82-110 [pedersen_elgamal_eq_prove]; the proof made by
    [sigma_prove] has two responses and three commitments. *)
Definition pe_prove (chal : oracle) (t : transcript) (g : rng) (m r : F) (pk : G) (ct : ctext) (com : G) : res pe_proof :=
  bind (sigma_prove chal (t ++ [Tag 3]) g (pe_elems pk ct com) pe_lhs [m; r]) (fun x =>
  match s_resps (fst (fst x)), s_coms (fst (fst x)) with
  | z1 :: z2 :: _, a :: b :: c :: _ => Ok (mkPe z1 z2 (a, b) c)
  | _, _ => Panic
  end).
Definition pe_sigma (p : pe_proof) : sigma_proof := mkSigma [fst (pe_e1 p); snd (pe_e1 p); pe_c1 p] [pe_z1 p; pe_z2 p].
(** pedersen_elgamal.rs 112-137 [pedersem_elgamal_eq_verify_scalars]; [remove(0)]. *)
Definition pe_verify_scalars (chal : oracle) (t : transcript) (g : rng) (pk : G) (ct : ctext) (com : G) (p : pe_proof) : res (list F * rng) :=
  bind (sigma_verify_scalars chal (t ++ [Tag 3]) g (pe_elems pk ct com) pe_lhs pe_rhs (pe_sigma p)) (fun x =>
  Ok (tl (fst (fst x)), snd x)).
Definition pe_own (pk : G) (ct : ctext) (com : G) (p : pe_proof) : list G :=
  [pk; fst ct; snd ct; com; fst (pe_e1 p); snd (pe_e1 p); pe_c1 p].
(** pedersen_elgamal.rs 142-176 [pedersen_elgamal_eq_verify]. *)
Definition pe_verify (chal : oracle) (t : transcript) (g : rng) (pk : G) (ct : ctext) (com : G) (p : pe_proof) : res unit :=
  bind (pe_verify_scalars chal t g pk ct com p) (fun s =>
  if meqb (multi_exp (fst s) ([B; H] ++ pe_own pk ct com p)) m0 then Ok tt else Err).
(** pedersen_elgamal.rs 178-187 [get_linear_combination_scalars] and
    chaum_pedersen.rs 402-412 [get_lc_scalars]. *)
Fixpoint draws (chal : oracle) (n : nat) (t : transcript) : list F * transcript :=
  match n with
  | O => ([], t)
  | S n' => let (c, t1) := get_challenge chal t in let (l, t2) := draws chal n' t1 in (c :: l, t2)
  end.
Definition lc_scalars (chal : oracle) (t : transcript) (n : nat) : list F * transcript :=
  match n with O => ([], t) | S n' => let (l, t1) := draws chal n' t in (1 :: l, t1) end.
(** pedersen_elgamal.rs 210-228 and 281-293: the linear combinations. *)
Definition lc_s (x : list F) (m : list F) : F := fold_left (fun a xm => a + fst xm * snd xm) (combine x m) 0.
Definition lc_g (x : list F) (e : list G) : G := fold_left (fun a xe => (a + fst xe *: snd xe)%M) (combine x e) m0.
Definition lc_ct (x : list F) (cts : list ctext) : ctext := (lc_g x (map fst cts), lc_g x (map snd cts)).
(** pedersen_elgamal.rs 190-235 [pedersen_elgamal_aggregate_eq_proof]. *)
Definition pe_aggregate_prove (chal : oracle) (t : transcript) (g : rng) (m r : list F) (pk : G) (cts : list ctext) (coms : list G) : res pe_proof :=
  let n := length m in
  if negb (Nat.eqb n (length r)) then Panic else
  if negb (Nat.eqb n (length cts)) then Panic else
  if negb (Nat.eqb n (length coms)) then Panic else
  let t1 := init_pe_transcript t pk cts coms in
  let (x, t2) := lc_scalars chal t1 n in
  pe_prove chal t2 g (lc_s x m) (lc_s x r) pk (lc_ct x cts) (lc_g x coms).
(** pedersen_elgamal.rs 236-246 [PedersenElGamalProofInstance]. *)
Record pe_instance := mkPi { pi_pk : G; pi_cts : list ctext; pi_coms : list G; pi_proof : pe_proof }.
(** pedersen_elgamal.rs 268-316: the loop of the batch verifier.  [acc] is (scalar of
    B, scalar of H, other scalars, other elements). *)
Definition bacc := (F * F * list F * list G)%type.
Definition pe_step (chal : oracle) (t : transcript) (st : rng * bacc) (i : pe_instance) : res (rng * bacc) :=
  let '(g, (sB, sH, ss, es)) := st in
  let n := length (pi_cts i) in
  if negb (Nat.eqb n (length (pi_coms i))) then Panic else
  let alpha := g 0%nat in
  let t1 := init_pe_transcript t (pi_pk i) (pi_cts i) (pi_coms i) in
  let (x, t2) := lc_scalars chal t1 n in
  let ct := lc_ct x (pi_cts i) in let com := lc_g x (pi_coms i) in
  bind (pe_verify_scalars chal t2 (skipr 1 g) (pi_pk i) ct com (pi_proof i)) (fun r =>
  let s := fst r in
  Ok (snd r, (sB + alpha * nth 0 s 0, sH + alpha * nth 1 s 0, ss ++ map (fun x => alpha * x) (skipn 2 s), es ++ pe_own (pi_pk i) ct com (pi_proof i)))).
Fixpoint foldr_res {A T : Type} (f : A -> T -> res A) (l : list T) (a : A) : res A :=
  match l with [] => Ok a | x :: l' => bind (f a x) (foldr_res f l') end.
Definition batch_check (acc : bacc) : res unit :=
  let '(sB, sH, ss, es) := acc in
  if meqb (multi_exp ([sB; sH] ++ ss) ([B; H] ++ es)) m0 then Ok tt else Err.
(** pedersen_elgamal.rs 248-327 [pedersen_elgamal_batch_verify]. *)
Definition pe_batch_verify (chal : oracle) (t : transcript) (g : rng) (l : list pe_instance) : res unit :=
  bind (foldr_res (pe_step chal t) l (g, (0, 0, [], []))) (fun st => batch_check (snd st)).
(** pedersen_elgamal.rs 329-346 [pedersen_elgamal_aggregate_eq_verify]. *)
Definition pe_aggregate_verify (chal : oracle) (t : transcript) (g : rng) (pk : G) (cts : list ctext) (coms : list G) (p : pe_proof) : res unit :=
  pe_batch_verify chal t g [mkPi pk cts coms p].

(** ** Equality of Pedersen commitments *)
(** chaum_pedersen.rs 12-19 [ChaumPedersenProof]; 21-33 [init_chaum_pedersen]. *)
Record cp_proof := mkCp { cp_c3 : G; cp_c4 : G; cp_z1 : F; cp_z2 : F; cp_z3 : F }.
Definition cp_elems (c1 c2 : G) : list G := [m0; B; H; c1; c2].
Definition cp_lhs : list (list nat) := [[1; 2; 0]; [1; 0; 2]]%nat.
Definition cp_rhs : list nat := [3; 4]%nat.
Definition cp_sigma (p : cp_proof) : sigma_proof := mkSigma [cp_c3 p; cp_c4 p] [cp_z1 p; cp_z2 p; cp_z3 p].
(** chaum_pedersen.rs 36-65 [chaum_pedersen_prove_eq]. *)
Definition cp_prove (chal : oracle) (t : transcript) (g : rng) (v : F) (c1 : G) (r1 : F) (c2 : G) (r2 : F) : res (cp_proof * transcript * rng) :=
  bind (sigma_prove chal (t ++ [Tag 4]) g (cp_elems c1 c2) cp_lhs [v; r1; r2]) (fun x =>
  match s_coms (fst (fst x)), s_resps (fst (fst x)) with
  | a :: b :: _, z1 :: z2 :: z3 :: _ => Ok (mkCp a b z1 z2 z3, snd (fst x), snd x)
  | _, _ => Panic
  end).
(** chaum_pedersen.rs 75-100 [chaum_pedersen_verify_eq_scalars]. *)
Definition cp_verify_scalars (chal : oracle) (t : transcript) (g : rng) (c1 c2 : G) (p : cp_proof) : res (list F * transcript * rng) :=
  bind (sigma_verify_scalars chal (t ++ [Tag 4]) g (cp_elems c1 c2) cp_lhs cp_rhs (cp_sigma p)) (fun x =>
  Ok (tl (fst (fst x)), snd (fst x), snd x)).
(** chaum_pedersen.rs 102-125 [chaum_pedersen_verify_eq]; the transcript and
    generator afterwards are returned as well. *)
Definition cp_verify (chal : oracle) (t : transcript) (g : rng) (c1 c2 : G) (p : cp_proof) : res (transcript * rng) :=
  bind (sigma_verify_scalars chal (t ++ [Tag 4]) g (cp_elems c1 c2) cp_lhs cp_rhs (cp_sigma p)) (fun r =>
  if meqb (multi_exp (fst (fst r)) (cp_elems c1 c2 ++ s_coms (cp_sigma p))) m0 then Ok (snd (fst r), snd r) else Err).
(** chaum_pedersen.rs 127-132 [ChaumPedersenProofX]; 134-144. *)
Record cpx_proof := mkCpx { x_eq : cp_proof; x_zero : option cp_proof }.
Definition init_cp_multiple (t : transcript) (coms : list G) : transcript := init_sigma 5 ([B; H] ++ coms) t.
(** chaum_pedersen.rs 174-188 (prover) and 248-254, 312-318 (verifier): the combination [d] of the
    differences with the first commitment, and its blinding. *)
Definition cp_d (a : list F) (coms : list G) (c0 : G) : G :=
  fold_left (fun d ac => (d + fst ac *: (c0 - snd ac))%M) (combine a (skipn 2 coms)) m0.
Definition cp_z (a : list F) (bl : list F) (r0 : F) : F :=
  fold_left (fun z ar => z + (r0 - snd ar) * fst ar) (combine a (skipn 2 bl)) 0.
(** chaum_pedersen.rs 146-206 [chaum_pedersen_prove_multiple_eq]. *)
Definition cp_prove_multiple (chal : oracle) (t : transcript) (g : rng) (v : F) (coms : list G) (bl : list F) : res cpx_proof :=
  if negb (Nat.eqb (length coms) (length bl)) || Nat.ltb (length coms) 2 then Err else
  match coms, bl with
  | c0 :: c1 :: _, r0 :: r1 :: _ =>
      bind (cp_prove chal (init_cp_multiple t coms) g v c0 r0 c1 r1) (fun x =>
      let '(p, t2, g2) := x in
      if Nat.eqb (length coms) 2 then Ok (mkCpx p None) else
      let (a, t3) := lc_scalars chal t2 (length coms - 2) in
      bind (cp_prove chal t3 g2 0 (cp_d a coms c0) (cp_z a bl r0) m0 0) (fun y =>
      Ok (mkCpx p (Some (fst (fst y))))))
  | _, _ => Panic
  end.
(** chaum_pedersen.rs 276-328 [chaum_pedersen_verify_multiple_eq]. *)
Definition cp_verify_multiple (chal : oracle) (t : transcript) (g : rng) (coms : list G) (p : cpx_proof) : res unit :=
  match coms with
  | c0 :: c1 :: _ =>
      bind (cp_verify chal (init_cp_multiple t coms) g c0 c1 (x_eq p)) (fun tg =>
      if Nat.eqb (length coms) 2 then match x_zero p with None => Ok tt | Some _ => Err end else
      match x_zero p with
      | None => Err
      | Some pz =>
          let (a, t3) := lc_scalars chal (fst tg) (length coms - 2) in
          bind (cp_verify chal t3 (snd tg) (cp_d a coms c0) m0 pz) (fun _ => Ok tt)
      end)
  | _ => Err
  end.
(** chaum_pedersen.rs 222-274 [chaum_pedersen_verify_multiple_eq_scalars];
    [commitments[0]] and [commitments[1]] panic when absent. *)
Definition cp_multiple_scalars (chal : oracle) (t : transcript) (g : rng) (coms : list G) (p : cpx_proof) : res (list F * option G * rng) :=
  match coms with
  | c0 :: c1 :: _ =>
      bind (cp_verify_scalars chal (init_cp_multiple t coms) g c0 c1 (x_eq p)) (fun x =>
      let '(s, t2, g2) := x in
      if Nat.eqb (length coms) 2 then match x_zero p with None => Ok (s, None, g2) | Some _ => Err end else
      match x_zero p with
      | None => Err
      | Some pz =>
          let (a, t3) := lc_scalars chal t2 (length coms - 2) in
          let d := cp_d a coms c0 in
          bind (cp_verify_scalars chal t3 g2 d m0 pz) (fun y =>
          let '(cs, _, g3) := y in
          let alpha := g3 0%nat in
          Ok ((nth 0 s 0 + alpha * nth 0 cs 0) :: (nth 1 s 0 + alpha * nth 1 cs 0) :: skipn 2 s
                ++ [alpha * nth 2 cs 0; alpha * nth 4 cs 0; alpha * nth 5 cs 0], Some d, skipr 1 g3))
      end)
  | _ => Panic
  end.
(** chaum_pedersen.rs 348-377: the loop of the batch verifier. *)
Definition cp_step (chal : oracle) (t : transcript) (st : rng * bacc) (i : list G * cpx_proof) : res (rng * bacc) :=
  let '(g, (sB, sH, ss, es)) := st in
  let (coms, p) := i in
  bind (cp_multiple_scalars chal t g coms p) (fun x =>
  let '(s, elem, g1) := x in
  let alpha := g1 0%nat in
  let own := [nth 0 coms m0; nth 1 coms m0; cp_c3 (x_eq p); cp_c4 (x_eq p)] in
  let base := (sB + nth 0 s 0 * alpha, sH + nth 1 s 0 * alpha) in
  match elem, x_zero p with
  | Some d, Some pz => Ok (skipr 1 g1, (base, ss ++ map (fun k => nth k s 0 * alpha) [2; 3; 4; 5; 6; 7; 8]%nat, es ++ own ++ [d; cp_c3 pz; cp_c4 pz]))
  | Some _, None => Panic
  | None, _ => Ok (skipr 1 g1, (base, ss ++ map (fun k => nth k s 0 * alpha) [2; 3; 4; 5]%nat, es ++ own))
  end).
(** chaum_pedersen.rs 331-388 [chaum_pedersen_batch_verify_multiple_eq]. *)
Definition cp_batch_verify (chal : oracle) (t : transcript) (g : rng) (l : list (list G * cpx_proof)) : res unit :=
  bind (foldr_res (cp_step chal t) l (g, (0, 0, [], []))) (fun st => batch_check (snd st)).

(** ** Delegated Schnorr *)
(** pedersen_comm.rs 45-51 and 93-95 [commit]. *)
Definition commit (v r : F) : G := (v *: B + r *: H)%M.
(** delegated_schnorr.rs 12-22 and 24-35.  The inspector's state commitment (a Rescue
    hash, lines 117-177) is computed by the argument [inspect] from the first
    components of the data, of the randomizers and from the hash randomizer; its
    value is [Other] to the transcript. *)
Record ds_proof := mkDs { ds_comm : N; ds_rand : list G; ds_resp : list (F * F) }.
Record ds_insp := mkDi { di_pairs : list (F * F); di_r : N }.
(** delegated_schnorr.rs 187-200 and 265-282: the messages before the challenge. *)
Definition ds_transcript (t : transcript) (coms : list G) (comm : N) (rand : list G) : transcript :=
  t ++ [Elem B; Elem H; Num (N.of_nat (length coms))] ++ map Elem coms ++ [Other comm] ++ map Com rand.
(** delegated_schnorr.rs 222-225 and 292-295. *)
Definition ds_after (t : transcript) (resp : list (F * F)) : transcript :=
  t ++ [Drawn] ++ flat_map (fun s => [Scal (fst s); Scal (snd s)]) resp.
Definition pair_up (g : rng) (n : nat) : list (F * F) := map (fun i => (g (2 * i)%nat, g (2 * i + 1)%nat)) (seq 0 n).
(** delegated_schnorr.rs 83-246 [prove_delegated_schnorr]. *)
Definition ds_prove (inspect : list F -> list F -> N -> N) (chal : oracle) (t : transcript) (g : rng) (r : N)
  (data : list (F * F)) (coms : list G) : res (ds_proof * ds_insp * F * F) :=
  if negb (Nat.eqb (length data) (length coms)) then Panic else
  let rs := pair_up g (length data) in
  let comm := inspect (map fst data) (map fst rs) r in
  let rand := map (fun vr => commit (fst vr) (snd vr)) rs in
  let t1 := ds_transcript t coms comm rand in
  let beta := chal t1 in
  let resp := map (fun dr => (beta * fst (fst dr) + fst (snd dr), beta * snd (fst dr) + snd (snd dr))) (combine data rs) in
  let t2 := ds_after t1 resp in
  Ok (mkDs comm rand resp, mkDi (combine (map fst data) (map fst rs)) r, beta, chal t2).
(** delegated_schnorr.rs 305-318: the group equations, in order. *)
Fixpoint ds_check (beta : F) (l : list (F * F * G * G)) : bool :=
  match l with
  | [] => true
  | (s, c, rd) :: l' => meqb (commit (fst s) (snd s)) (beta *: c + rd)%M && ds_check beta l'
  end.
(** delegated_schnorr.rs 248-321 [verify_delegated_schnorr]. *)
Definition ds_verify (chal : oracle) (t : transcript) (coms : list G) (p : ds_proof) : res (F * F) :=
  if negb (Nat.eqb (length coms) (length (ds_rand p))) then Panic else
  if negb (Nat.eqb (length coms) (length (ds_resp p))) then Panic else
  let t1 := ds_transcript t coms (ds_comm p) (ds_rand p) in
  let beta := chal t1 in
  let lambda := chal (ds_after t1 (ds_resp p)) in
  if ds_check beta (combine (combine (ds_resp p) coms) (ds_rand p)) then Ok (beta, lambda) else Err.
End Sigma.
