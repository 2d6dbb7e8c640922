(** Model of stored parameters: plonk/src/poly_commit/kzg_poly_com.rs 149-201 (bytes of
    the structured reference string), api/src/setup.rs 137-167, 377-398
    [load_lagrange_params], 400-506 [VerifierParams], api/src/gen-params.rs 74-183, and the switch to verifier-only systems of
    plonk/src/plonk/constraint_system/turbo.rs 190-210 and prover.rs 102-104.

    The encodings of single group elements (ark) and of the files (bincode) are
    arguments.  Sizes are exact: on the 64-bit targets of the project no product of
    lines 183-193 overflows. *)
From Coq Require Import List Arith NArith Bool.
From Verif Require Import Base Field PField UtilsModel PolyModel KzgModel TurboModel PlonkModel.
Import ListNotations.

(** An encoding to bytes; [dec] may fail. *)
Record codec (A : Type) := mkCodec { enc : A -> list N; dec : list N -> res A; esize : nat }.
Arguments enc {A}. Arguments dec {A}. Arguments esize {A}.
(** [&bs[lo..hi]]. *)
Definition slice (lo hi : nat) (bs : list N) : res (list N) :=
  if Nat.leb hi (length bs) then Ok (firstn (hi - lo) (skipn lo bs)) else Panic.
(** [x as u32] and its four bytes. *)
Definition u32_bytes (n : nat) : list N := le_bytes 4 (N.of_nat n mod 2 ^ 32).
Definition u32_of (bs : list N) : nat := N.to_nat (le_value bs).

Section Params.
Context {F : PField} {G1 G2 GT : Mod F} (e : G1 -> G2 -> GT).
Context (gen : F) (order : N) (draw : list (tmsg G1) -> F) (cdraw : nat -> list (tmsg G1) -> F).
Context (c1 : codec G1) (c2 : codec G2).

(** ** kzg_poly_com.rs *)
(** kzg_poly_com.rs 149-164 [to_unchecked_bytes]. *)
Definition kzg_to_bytes (k : kzg G1 G2) : list N :=
  u32_bytes (length (pp1 k)) ++ u32_bytes (length (pp2 k)) ++ flat_map (enc c1) (pp1 k) ++ flat_map (enc c2) (pp2 k).
(** kzg_poly_com.rs 185-195: one vector of elements. *)
Definition read_elems {A} (c : codec A) (len : nat) (bs : list N) : res (list A) :=
  mapM (fun i => bind (slice (esize c * i) (esize c * (i + 1)) bs) (dec c)) (seq 0 len).
(** kzg_poly_com.rs 167-201 [from_unchecked_bytes]. *)
Definition kzg_from_bytes (bs : list N) : res (kzg G1 G2) :=
  if Nat.ltb (length bs) 8 then Err else
  let len1 := u32_of (firstn 4 bs) in
  let len2 := u32_of (firstn 4 (skipn 4 bs)) in
  if Nat.ltb (length bs) (8 + esize c1 * len1) then Panic else
  bind (read_elems c1 len1 (skipn 8 bs)) (fun p1 =>
  bind (read_elems c2 len2 (skipn (8 + esize c1 * len1) bs)) (fun p2 =>
  Ok {| pp1 := p1; pp2 := p2 |})).

(** ** setup.rs *)
(** setup.rs 387-391; [ok()?] turns a failure into the absence of parameters. *)
Fixpoint read_lagrange (is : list nat) (bs : list N) : res (option (list G1)) :=
  match is with
  | [] => Ok (Some [])
  | i :: is' =>
      bind (slice (4 + esize c1 * i) (4 + esize c1 * (i + 1)) bs) (fun b =>
      match dec c1 b with
      | Ok g => rmap (option_map (cons g)) (read_lagrange is' bs)
      | Err => Ok None
      | Panic => Panic
      end)
  end.
(** setup.rs 377-398 [load_lagrange_params]; [bases] is [LAGRANGE_BASES]. *)
Definition load_lagrange (bases : nat -> option (list N)) (size : nat) : res (option (kzg G1 G2)) :=
  match bases size with
  | None => Ok None
  | Some bs =>
      bind (slice 0 4 bs) (fun b =>
      rmap (option_map (fun v => {| pp1 := v; pp2 := [] |})) (read_lagrange (seq 0 (u32_of b)) bs))
  end.

(** The parts of a constraint system that parameters carry; [size] and [num_vars] are
    fields of their own (turbo.rs 33-66). *)
Record csys := mkCsys { s_gates : list (gate F); s_vars : nat; s_size : nat; s_vonly : bool }.
Definition full (gs : list (gate F)) (nv : nat) : csys := mkCsys gs nv (length gs) false.
(** turbo.rs 190-210 [shrink_to_verifier_only]. *)
Definition shrink_cs (c : csys) : csys := mkCsys [] (s_vars c) (s_size c) true.

(** setup.rs 49-60 and 62-71. *)
Record pset := mkPs { ps_pcs : kzg G1 G2; ps_lag : option (kzg G1 G2); ps_cs : csys; ps_pk : pparams (F := F) G1 }.
Record vset := mkVs { vs_pcs : kzg G1 G2; vs_cs : csys; vs_vk : vparams (F := F) G1 }.
(** setup.rs 137 and 154-167 (the same in every function of [ProverParams]): parameters
    for a circuit; [srs] and [bases] are the embedded files, [ks] the result of
    [choose_ks] with its fixed seed. *)
Definition make (srs : option (list N)) (bases : nat -> option (list N)) (ks : list F) (c : list (gate F) * nat) : res pset :=
  match srs with
  | None => Err
  | Some bs =>
      bind (kzg_from_bytes bs) (fun k =>
      bind (load_lagrange bases (length (fst c))) (fun lag =>
      bind (unwrap (indexer gen order (fst c) (snd c) k lag ks)) (fun pk =>
      Ok (mkPs k lag (full (fst c) (snd c)) pk))))
  end.
(** setup.rs 498-506 [From<ProverParams>]. *)
Definition to_verifier (p : pset) : vset := mkVs (ps_pcs p) (ps_cs p) (pk_vk (ps_pk p)).
(** setup.rs 476-482 [shrink]. *)
Definition shrink_params (v : vset) : res vset :=
  rmap (fun k => mkVs k (shrink_cs (vs_cs v)) (vs_vk v)) (KzgModel.shrink (vs_pcs v)).
(** setup.rs 485-495 [split]. *)
Definition split_params (v : vset) : res (kzg G1 G2 * (csys * vparams (F := F) G1)) :=
  rmap (fun k => (k, (shrink_cs (vs_cs v), vs_vk v))) (KzgModel.shrink (vs_pcs v)).

(** verifier.rs 17-104 and prover.rs 88-104 with these parameters. *)
Definition verify_with (v : vset) (t : list (tmsg G1)) (pi : list F) (pf : proof (F := F) G1) : res unit :=
  verifier e draw cdraw t (vs_pcs v) (s_size (vs_cs v)) (vs_vk v) pi pf.
Definition prove_with (p : pset) (c : csys) (rnd : nat -> F) (t : list (tmsg G1)) (w : list F) : res (proof (F := F) G1) :=
  if s_vonly c then Err else prover draw cdraw rnd t (ps_pcs p) (ps_lag p) (s_gates c) (s_vars c) (ps_pk p) w.

(** ** Stored verifier parameters *)
(** bincode for the two parts and for the table of setup.rs 420. *)
Context (cc : codec (kzg G1 G2)) (cs : codec (csys * vparams (F := F) G1)) (ct : codec (list (list (list N)))).
(** setup.rs 94. *)
Definition MAX_ANONYMOUS_RECORD_NUMBER : nat := 6.
(** setup.rs 402-409 [create]; [circuit i j] is the padded circuit of the placeholder
    transfer with the default depth. *)
Definition create (srs : option (list N)) (bases : nat -> option (list N)) (ks : list F) (circuit : nat -> nat -> res (list (gate F) * nat))
    (i j : nat) : res vset :=
  match srs with
  | None => Err
  | Some _ => bind (circuit i j) (fun c => rmap to_verifier (make srs bases ks c))
  end.
(** gen-params.rs 74-119 [gen_transfer_vk]: the contents of the two files (the rows are
    made in parallel and put back in order). *)
Definition gen_transfer_vk (mk : nat -> nat -> res vset) : res (list N * list N) :=
  bind (unwrap (mk 1 1)) (fun v => bind (unwrap (split_params v)) (fun cv =>
  bind (mapM (fun i => mapM (fun j =>
      bind (unwrap (mk i j)) (fun v => bind (unwrap (split_params v)) (fun s => Ok (enc cs (snd s)))))
    (seq 1 MAX_ANONYMOUS_RECORD_NUMBER)) (seq 1 MAX_ANONYMOUS_RECORD_NUMBER)) (fun table =>
  Ok (enc cc (fst cv), enc ct table)))).
(** setup.rs 412-433 [load]; [mk] is [create].  Index [n - 1] for zero is out of range (or
    the subtraction panics). *)
Definition load (common specific : option (list N)) (mk : nat -> nat -> res vset) (n_payers n_payees : nat) : res vset :=
  if Nat.ltb MAX_ANONYMOUS_RECORD_NUMBER n_payees || Nat.ltb MAX_ANONYMOUS_RECORD_NUMBER n_payers then Err else
  match common, specific with
  | Some cb, Some sb =>
      bind (dec cc cb) (fun k =>
      bind (unwrap (dec ct sb)) (fun table =>
      match n_payers, n_payees with
      | S i, S j =>
          bind (idx table i) (fun row => bind (idx row j) (fun b =>
          bind (dec cs b) (fun s => Ok (mkVs k (fst s) (snd s)))))
      | _, _ => Panic
      end))
  | _, _ => mk n_payers n_payees
  end.
(** gen-params.rs 122-183: the file for one of the four other circuits; [mk] creates the
    prover's parameters. *)
Context (cv : codec vset).
Definition gen_vk (mk : res pset) : res (list N) :=
  bind (unwrap mk) (fun p => bind (unwrap (shrink_params (to_verifier p))) (fun v => Ok (enc cv v))).
(** setup.rs 435-473: the four functions that load them. *)
Definition load_vk (file : option (list N)) (mk : res pset) : res vset :=
  match file with Some bs => dec cv bs | None => rmap to_verifier mk end.
End Params.
Arguments csys F : clear implicits. Arguments pset {F} G1 G2. Arguments vset {F} G1 G2.
