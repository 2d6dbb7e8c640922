(** Model of the notes between confidential and anonymous records:
    api/src/anon_xfr/bar_to_abar.rs 216-283 [verify_bar_to_abar], 325-368
    [verify_inspection] and 370-618 [build_bar_to_abar_cs];
    api/src/anon_xfr/abar_to_bar.rs 239-355 [verify_abar_to_bar_note] and 533-831
    [build_abar_to_bar_cs].  [F] is the field of the circuit, [K] the scalar field of
    Ristretto.  The simulated arithmetic is [SimModel], the delegated Schnorr proof
    [SigmaModel], the folding gadget [AfoldModel]. *)
From Coq Require Import List ZArith NArith Bool.
From Verif Require Import Base Field PField UtilsModel TurboModel RescueModel AxfrModel SimModel AfoldModel XfrModel SigmaModel NoteModel.
Import ListNotations.

Section Insp.
Context (F K : PField) (P : rescue_instance F) (e : N).
Local Open Scope F_scope.
Notation S := ristretto.
Notation "l .{ i }" := (nth i l zero_var) (at level 9, format "l .{ i }").

(** delegated_schnorr.rs 37-47 [DelegatedSchnorrInspection] and the parts of
    [DelegatedSchnorrProof] the circuit reads: the committed values with the
    randomizers' first components, the hash randomizer, the inspection commitment, the
    first components of the responses, and the two challenges. *)
Record insp_witness := mkIw { iw_data : list (K * K); iw_r : F; iw_comm : F; iw_resp : list K; iw_beta : K; iw_lambda : K }.

(** bar_to_abar.rs 423-431: [SimFr::from(&BigUint::from_bytes_le(&x.to_bytes()))]. *)
Definition rsim_of (x : K) : sim F := sim_from F S (toZ x).
(** bar_to_abar.rs 340-341 and 425; abar_to_bar.rs 319-320.  Fewer than two responses
    panic. *)
Definition two_responses (resp : list K) (lambda : K) : res K :=
  match resp with
  | s1 :: s2 :: _ => Ok (s1 + s2 * lambda)
  | _ => Panic
  end.

(** delegated_schnorr.rs 117-177: the inspector's state commitment for Ristretto's
    limbs; the sponge is that of [AfoldModel]. *)
Fixpoint rpacked (l : list F) : Z :=
  match l with [] => 0%Z | x :: l' => (toZ x + 2 ^ Z.of_nat (BIT_PER_LIMB S) * rpacked l')%Z end.
Definition rcompress (l : list F) : list F := map (fun ch => fofZ (rpacked ch)) (chunks num_limbs_compressed l).
Definition state_comm (data rhos : list Z) (r : F) : res F :=
  sponge F P (resized 0 (rcompress (flat_map (fun x => limbs (sim_from F S x)) (data ++ rhos)) ++ [r])).

(** bar_to_abar.rs 334-356; abar_to_bar.rs 337-343: the public inputs of the
    inspection. *)
Definition insp_inputs (comm : F) (resp : list K) (beta lambda : K) : res (list F) :=
  rmap (fun c => comm :: limbs (rsim_of beta) ++ limbs (rsim_of lambda) ++ limbs (rsim_of (beta * lambda)) ++ limbs (rsim_of c))
    (two_responses resp lambda).

(** ** The circuit *)
(** bar_to_abar.rs 430-440: the variables of step 2. *)
Record insp_v := mkIv { i_x : simvar F; i_y : simvar F; i_a : simvar F; i_b : simvar F; i_comm : nat; i_r : nat;
  i_beta : simvar F; i_lambda : simvar F; i_bl : simvar F; i_resp : simvar F }.
Definition insp_alloc (x y a b : K) (comm r : F) (beta lambda resp : K) : CR F insp_v :=
  rbnd (alloc_witness_bounded_total_bits S (rsim_of x) 64) (fun vx =>
  rbnd (alloc_witness_bounded_total_bits S (rsim_of y) 240) (fun vy =>
  rbnd (alloc_witness S (rsim_of a)) (fun va =>
  rbnd (alloc_witness S (rsim_of b)) (fun vb =>
  rbnd (lift (new_variable F comm)) (fun cv =>
  rbnd (lift (new_variable F r)) (fun rv =>
  rbnd (lift (alloc_input (rsim_of beta))) (fun vbeta =>
  rbnd (lift (alloc_input (rsim_of lambda))) (fun vl =>
  rbnd (lift (alloc_input (rsim_of (beta * lambda)))) (fun vbl =>
  rbnd (lift (alloc_input (rsim_of resp))) (fun vr =>
  rret (mkIv (fst vx) (fst vy) (fst va) (fst vb) cv rv vbeta vl vbl vr))))))))))).

(** bar_to_abar.rs 393-397: the powers of two. *)
Definition rstep (i : nat) : F := fofZ (2 ^ Z.of_nat (BIT_PER_LIMB S * i)).
(** bar_to_abar.rs 455-496, step 3: a chunk of limb variables, packed. *)
Definition rcompress_chunk (l : list nat) : CS F nat :=
  bnd (linear_combine F l.{0} l.{1} l.{2} l.{3} 1 (rstep 1) (rstep 2) (rstep 3)) (fun sum =>
  if Nat.eqb (length l) 5
  then linear_combine F sum l.{4} zero_var zero_var 1 (rstep 4) 0 0
  else ret sum).
Definition rcompress_cs (l : list nat) : CS F (list nat) :=
  RescueModel.mapM F rcompress_chunk (chunks num_limbs_compressed l).
(** bar_to_abar.rs 498-515, step 4. *)
Definition insp_open (v : insp_v) : CR F unit :=
  rbnd (lift (rcompress_cs (svar (i_x v) ++ svar (i_y v) ++ svar (i_a v) ++ svar (i_b v)))) (fun cl =>
  match cl with
  | c0 :: c1 :: c2 :: c3 :: c4 :: _ =>
      rbnd (lift (hash_cs F P e c0 c1 c2 c3)) (fun h1 =>
      rbnd (lift (hash_cs F P e h1 c4 (i_r v) zero_var)) (fun h2 =>
      lift (equal F h2 (i_comm v))))
  | _ => fun _ => Panic
  end).
(** bar_to_abar.rs 517-531, step 5. *)
Definition insp_equation (v : insp_v) : CR F unit :=
  rbnd (lift (var_mul (i_beta v) (i_x v))) (fun m0 =>
  rbnd (lift (var_mul (i_bl v) (i_y v))) (fun m1 =>
  rbnd (lift (var_mul (i_lambda v) (i_b v))) (fun m2 =>
  rbnd (lift (mulvar_add m0 m1)) (fun rhs0 =>
  rbnd (lift (mulvar_add rhs0 m2)) (fun rhs =>
  rbnd (var_sub S (i_resp v) (i_a v)) (fun d =>
  rbnd (mulvar_sub S rhs d) (fun eqn =>
  var_enforce_zero S eqn))))))).
(** bar_to_abar.rs 533-583, step 6: an element as one scalar. *)
Definition insp_number (v : simvar F) : CS F nat :=
  bnd (linear_combine F (svar v).{0} (svar v).{1} (svar v).{2} (svar v).{3} 1 (rstep 1) (rstep 2) (rstep 3)) (fun o =>
  linear_combine F o (svar v).{4} (svar v).{5} zero_var 1 (rstep 4) (rstep 5) 0).
Definition insp_match (v : insp_v) (amount ty : nat) : CS F unit :=
  bnd (insp_number (i_x v)) (fun xo =>
  bnd (insp_number (i_y v)) (fun yo =>
  bnd (equal F xo amount) (fun _ => equal F yo ty))).
(** Steps 2 to 6; the variables to publish are returned.  With fewer than two data or
    responses an index of bar_to_abar.rs 406-425 panics. *)
Definition insp_body (w : insp_witness) (amount ty : nat) : CR F (list nat) :=
  match iw_data w, two_responses (iw_resp w) (iw_lambda w) with
  | (x, a) :: (y, b) :: _, Ok resp =>
      rbnd (insp_alloc x y a b (iw_comm w) (iw_r w) (iw_beta w) (iw_lambda w) resp) (fun v =>
      rbnd (insp_open v) (fun _ =>
      rbnd (insp_equation v) (fun _ =>
      rbnd (lift (insp_match v amount ty)) (fun _ =>
      rret (i_comm v :: svar (i_beta v) ++ svar (i_lambda v) ++ svar (i_bl v) ++ svar (i_resp v))))))
  | _, _ => fun _ => Panic
  end.

(** bar_to_abar.rs 370-612 [build_bar_to_abar_cs], without the padding. *)
Definition bar_to_abar_cs (amount ty blind : F) (pk : F * F * F) (w : insp_witness) : CR F unit :=
  rbnd (lift (new_variable F amount)) (fun av =>
  rbnd (lift (new_variable F ty)) (fun tv =>
  rbnd (lift (new_variable F blind)) (fun bv =>
  rbnd (lift (new_pk F pk)) (fun pkv =>
  rbnd (insp_body w av tv) (fun l =>
  rbnd (lift (commit_in_cs F P e bv av tv pkv)) (fun com =>
  lift (publish F (com :: l)))))))).

(** abar_to_bar.rs 533-823 [build_abar_to_bar_cs], without the padding.  [folding] is
    the folding gadget with its witness; [k] are the key scalars the code takes from
    that witness. *)
Definition abar_to_bar_cs (folding : pk_v -> sk_v -> CR F unit) (p : payer_w F) (k : keypair F) (w : insp_witness) : CR F unit :=
  rbnd (lift (add_payer F p)) (fun v =>
  rbnd (lift (new_pk F (kp_pk F k))) (fun pk =>
  rbnd (lift (new_sk F (kp_sk F k))) (fun sk =>
  rbnd (lift (commit_in_cs F P e (pv_blind v) (pv_amount v) (pv_type v) pk)) (fun com =>
  rbnd (lift (linear_combine F (pv_uid v) (pv_amount v) zero_var zero_var (fofZ (2 ^ 64)) 1 0 0)) (fun ua =>
  rbnd (lift (nullify_in_cs F P e sk ua (pv_type v) pk)) (fun nf =>
  rbnd (lift (compute_merkle_root_variables F P e (pv_uid v) com (pv_path v))) (fun root =>
  rbnd (insp_body w (pv_amount v) (pv_type v)) (fun l =>
  rbnd (lift (publish F (nf :: root :: l))) (fun _ =>
  folding pk sk))))))))).
End Insp.
Arguments mkIw {F K}. Arguments iw_data {F K}. Arguments iw_r {F K}. Arguments iw_comm {F K}. Arguments iw_resp {F K}.
Arguments iw_beta {F K}. Arguments iw_lambda {F K}.

(** ** Provers and verifiers *)
(** [G] is the Ristretto group with its Pedersen generators and its compressed
    encoding.  An asset type's scalar (xfr/structs.rs 44-66) is a number of 240 bits,
    the same in every field: [as_num] gives it. *)
Section Notes.
Context (F K : PField) (P : rescue_instance F) (G : Mod K) (B H : G).
Context {C : Type} (comp : G -> C) (decomp : C -> option G) (Hdc : forall g, decomp (comp g) = Some g)
  (ceqb : C -> C -> bool) (Hceqb : forall a b, reflect (a = b) (ceqb a b)).
Definition rgroup : pgroup := mkPgroup K G B H C comp decomp Hdc ceqb Hceqb.
Context (as_num : N -> N).
Local Open Scope F_scope.

(** bar_to_abar.rs 229-250; abar_to_bar.rs 260-283: the commitment to the amount. *)
Definition com_amount (r : bar rgroup) : res G :=
  rmap (fun lh => (fst lh + fofZ (2 ^ 32) *: snd lh)%M)
    match b_amount r with
    | AConf lo hi => bind (opt (decomp lo)) (fun l => bind (opt (decomp hi)) (fun h => Ok (l, h)))
    | APlain a => let '(l, h) := u64_to_u32_pair a in Ok (SigmaModel.commit B H (fofN l) 0, SigmaModel.commit B H (fofN h) 0)
    end.
(** bar_to_abar.rs 251-260; abar_to_bar.rs 284-293: the commitment to the type. *)
Definition com_type (r : bar rgroup) : res G :=
  match b_type r with
  | TConf c => opt (decomp c)
  | TPlain t => Ok (SigmaModel.commit B H (fofN (as_num t)) 0)
  end.

(** The inspection commitment is a scalar of [F]; proofs and transcripts carry its
    canonical number. *)
Definition scalar_num (x : F) : N := Z.to_N (toZ x).
(** bar_to_abar.rs 262-265 and abar_to_bar.rs 297-300: the transcripts before the
    delegated Schnorr proof. *)
Definition from_start (out : F) : transcript (F := K) (G := G) := [Tag 10; Other (scalar_num out)].
Definition to_start (nf : F) : transcript (F := K) (G := G) := [Tag 11; Other (scalar_num nf)].
(** The inputs of the inspection from a delegated Schnorr proof. *)
Definition proof_inputs (p : ds_proof (F := K) (G := G)) (beta lambda : K) : res (list F) :=
  insp_inputs F K (fofN (ds_comm p)) (map fst (ds_resp p)) beta lambda.

Context {D Fi Pf Vp Sig Memo : Type} (chal : oracle (F := K) (G := G))
  (fold_verify : D -> Fi -> res (list F)) (plonk : Vp -> list F -> Pf -> res unit).
(** bar_to_abar.rs 216-283 [verify_bar_to_abar] and 325-368 [verify_inspection]. *)
Definition from_conf_core (p : Vp) (b : from_body F rgroup (Pf := Pf) (Memo := Memo) (Cproof := ds_proof (F := K) (G := G))) : res unit :=
  if is_transparent rgroup (fb_in F rgroup b) then Err else
  bind (com_amount (fb_in F rgroup b)) (fun ca =>
  bind (com_type (fb_in F rgroup b)) (fun ct =>
  bind (ds_verify B H chal (from_start (fb_out F rgroup b)) [ca; ct] (fst (fb_proof F rgroup b))) (fun bl =>
  bind (proof_inputs (fst (fb_proof F rgroup b)) (fst bl) (snd bl)) (fun vs =>
  plonk p (fb_out F rgroup b :: vs) (snd (fb_proof F rgroup b)))))).
(** abar_to_bar.rs 260-355, the part of [verify_abar_to_bar_note] after the checks of
    the root and of the record type. *)
Definition to_conf_core (p : Vp) (n : conf_note F rgroup (Fi := Fi) (Pf := Pf) (Memo := Memo) (Cproof := ds_proof (F := K) (G := G))) (root : F) (h : D) : res unit :=
  let b := cn_body F rgroup n in
  bind (com_amount (cb_out F rgroup b)) (fun ca =>
  bind (com_type (cb_out F rgroup b)) (fun ct =>
  bind (ds_verify B H chal (to_start (cb_in F rgroup b)) [ca; ct] (cb_cp F rgroup b)) (fun bl =>
  bind (fold_verify h (cn_fold F rgroup n)) (fun fi =>
  bind (proof_inputs (cb_cp F rgroup b) (fst bl) (snd bl)) (fun vs =>
  plonk p (cb_in F rgroup b :: root :: vs ++ fi) (cn_proof F rgroup n)))))).

(** delegated_schnorr.rs 117-177, as the argument of [ds_prove]: the state commitment
    of the values; [r] is the number of the hash randomizer.  It never fails for two
    values (see [InspProofs]); a failure is the number zero here. *)
Definition inspect (data rhos : list K) (r : N) : N :=
  match state_comm F P (map toZ data) (map toZ rhos) (fofN r) with Ok c => scalar_num c | _ => 0%N end.
(** bar_to_abar.rs 166-176; abar_to_bar.rs 139-147: value and blinding of the two
    commitments. *)
Definition conf_data (o : oar rgroup) : list (K * K) :=
  [(fofN (XfrModel.o_amount rgroup o), o_blind_lo rgroup o + o_blind_hi rgroup o * fofZ (2 ^ 32));
   (fofN (as_num (XfrModel.o_type rgroup o)), o_type_blind rgroup o)].
(** bar_to_abar.rs 189-196; abar_to_bar.rs 155-166: the delegated Schnorr proof for an
    opened record, started with transcript [t]. *)
Definition conf_prove (t : transcript (F := K) (G := G)) (g : rng (F := K)) (r : N) (o : oar rgroup) :=
  ds_prove B H inspect chal t g r (conf_data o) (map (fun vr => SigmaModel.commit B H (fst vr) (snd vr)) (conf_data o)).
(** The witness of the circuits built from the proof and the inspector's state. *)
Definition witness_of (p : ds_proof (F := K) (G := G)) (i : ds_insp (F := K)) (beta lambda : K) : insp_witness F K :=
  mkIw (di_pairs i) (fofN (di_r i)) (fofN (ds_comm p)) (map fst (ds_resp p)) beta lambda.
End Notes.
