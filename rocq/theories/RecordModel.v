(** Model of blind asset records: owner memos (api/src/xfr/structs.rs), building and
    opening records (api/src/xfr/asset_record.rs) and tracer memos
    (api/src/xfr/asset_tracer.rs).

    Representation and simplifications.
    - Records are the [bar] and [oar] of XfrModel; the public key of a record is the
      number with the bytes of the key.  An asset type is the number of its 32 bytes,
      most significant first; [as_scalar] is a parameter.
    - The Edwards group, the bytes of a secp256k1 scalar and hashing to a scalar are
      the fields of [dhsuite]; SHA-512 receives the concatenation of its updates.
    - Random draws are arguments: [rnd] for one record, one byte string for each
      tracer memo.
    - Credential proofs (type [IDP]) and reveal policies (type [IP]) are opaque; the
      group of the attribute ciphertexts is an arbitrary vector space. *)
From Coq Require Import List NArith Bool.
From Verif Require Import Base Field UtilsModel XfrModel SigmaModel NoteModel KeyModel HybModel.
Import ListNotations.
Local Open Scope N_scope.

Record dhsuite (S : suite) (E : pgroup) := mkDh {
  d_base : bytes -> bytes;                (* ristretto.rs 327-329, scalar bytes *)
  d_mul : bytes -> bytes -> option bytes; (* ristretto.rs 437-445: point, scalar; [None] does not decompress *)
  d_sc_bytes : Sc S -> bytes;             (* secp256k1.rs [to_bytes] *)
  d_h2s : bytes -> PF E }.                (* structs.rs 569-574, the hash *)
Arguments d_base {S E}. Arguments d_mul {S E}. Arguments d_sc_bytes {S E}. Arguments d_h2s {S E}.

(** "amount_low", "amount_high", "asset_type". *)
Definition lbl_amount_low : bytes := [97; 109; 111; 117; 110; 116; 95; 108; 111; 119].
Definition lbl_amount_high : bytes := [97; 109; 111; 117; 110; 116; 95; 104; 105; 103; 104].
Definition lbl_asset_type : bytes := [97; 115; 115; 101; 116; 95; 116; 121; 112; 101].

Section Records.
Context (H : hsuite) (X : schemes) (S : suite) (L : slink X S) (E : pgroup) (D : dhsuite S E).
Context (as_scalar : N -> PF E).
Context {BF : Field} {BG : Mod BF} (BB : BG) (IP IDP : Type).

(** ** Owner memos *)
(** structs.rs 387-395 [OwnerMemo]. *)
Record omemo := mkOm { om_kt : key_type; om_share : bytes; om_lock : bytes }.
(** The draws for one record: the scalar of the share (one for each curve), the
    ephemeral X25519 secret, the scalar of the secp256k1 encryption. *)
Record rnd := mkRnd { r_ed : bytes; r_secp : Sc S; r_eph : bytes; r_enc : Sc S }.

(** sig.rs 156-170 [random_scalar_with_compressed_point]. *)
Definition random_share (pk : pubkey X) (r : rnd) : key_type * bytes * bytes :=
  match pk with
  | PkEd _ => (KEd25519, r_ed r, d_base D (r_ed r))
  | PkSecp _ | PkAddr _ => (KSecp256k1, d_sc_bytes D (r_secp r), sl_comp X S L (mulb S (r_secp r)))
  end.
(** sig.rs 173-179 [as_compressed_point]. *)
Definition as_compressed_point (pk : pubkey X) : res bytes :=
  match pk with
  | PkEd pk => Ok (epk_bytes X pk)
  | PkSecp pk => Ok (convert_point X S L pk)
  | PkAddr _ => Panic
  end.
(** sig.rs 409-432 [as_scalar_bytes]. *)
Definition as_scalar_bytes (k : seckey X) : key_type * bytes :=
  match k with
  | SkEd sk => (KEd25519, expand H (esk_bytes X sk))
  | SkSecp sk => (KSecp256k1, convert_scalar (sl_limbs X S L sk))
  | SkAddr sk => (KAddress, convert_scalar (sl_limbs X S L sk))
  end.
(** structs.rs 550-566 [derive_shared_point]: [from_slice] panics on a length other
    than 32, the product on a string that does not decompress. *)
Definition derive_shared_point (kt : key_type) (s p : bytes) : res bytes :=
  match kt with
  | KEd25519 =>
      bind (ristretto_bits s) (fun sc =>
      if negb (Nat.eqb (length p) 32) then Panic else
      match d_mul D p sc with Some q => Ok q | None => Panic end)
  | KSecp256k1 =>
      match sl_sc X S L s with
      | None => Err
      | Some a => match sl_decomp X S L p with None => Err | Some q => Ok (sl_comp X S L (pmul S q a)) end
      end
  | KAddress => Err
  end.
(** structs.rs 569-574, 537-542, 545-547. *)
Definition hash_to_scalar (point aux : bytes) : PF E := d_h2s D (point ++ aux).
Definition calc_amount_blinds (p : bytes) : PF E * PF E := (hash_to_scalar p lbl_amount_low, hash_to_scalar p lbl_amount_high).
Definition calc_asset_type_blind (p : bytes) : PF E := hash_to_scalar p lbl_asset_type.

(** The common part of the three constructors: the share, the shared point and the
    encryption of [plain]. *)
Definition seal_memo (pk : pubkey X) (r : rnd) (plain : bytes) : res (omemo * bytes) :=
  let '(kt, s, share) := random_share pk r in
  bind (as_compressed_point pk) (fun pt =>
  bind (derive_shared_point kt s pt) (fun shared =>
  bind (hybrid_encrypt H X S L pk (r_eph r) (r_enc r) plain) (fun lock =>
  Ok (mkOm kt share lock, shared)))).
(** structs.rs 398-417 [from_amount]. *)
Definition from_amount (r : rnd) (amount : N) (pk : pubkey X) : res (omemo * (PF E * PF E)) :=
  bind (seal_memo pk r (be_bytes 8 amount)) (fun ms => Ok (fst ms, calc_amount_blinds (snd ms))).
(** structs.rs 420-439 [from_asset_type]. *)
Definition from_asset_type (r : rnd) (ty : N) (pk : pubkey X) : res (omemo * PF E) :=
  bind (seal_memo pk r (be_bytes 32 ty)) (fun ms => Ok (fst ms, calc_asset_type_blind (snd ms))).
(** structs.rs 442-467 [from_amount_and_asset_type]. *)
Definition from_amount_and_asset_type (r : rnd) (amount ty : N) (pk : pubkey X) : res (omemo * (PF E * PF E) * PF E) :=
  bind (seal_memo pk r (be_bytes 8 amount ++ be_bytes 32 ty)) (fun ms =>
  Ok (fst ms, calc_amount_blinds (snd ms), calc_asset_type_blind (snd ms))).

(** structs.rs 532-534 [decrypt]; 471-480, 484-492, 496-510. *)
Definition om_decrypt (m : omemo) (k : seckey X) : res bytes := hybrid_decrypt H X S L k (om_lock m).
Definition decrypt_amount (m : omemo) (k : seckey X) : res N :=
  bind (om_decrypt m k) (fun b => if negb (Nat.eqb (length b) 8) then Err else Ok (be_value b)).
Definition decrypt_asset_type (m : omemo) (k : seckey X) : res N :=
  bind (om_decrypt m k) (fun b => if negb (Nat.eqb (length b) 32) then Err else Ok (be_value b)).
Definition decrypt_amount_and_asset_type (m : omemo) (k : seckey X) : res (N * N) :=
  bind (om_decrypt m k) (fun b =>
  if negb (Nat.eqb (length b) 40) then Err else Ok (be_value (firstn 8 b), be_value (skipn 8 b))).
(** structs.rs 513-520, 523-527. *)
Definition derive_amount_blinds (m : omemo) (k : seckey X) : res (PF E * PF E) :=
  let '(kt, s) := as_scalar_bytes k in
  bind (derive_shared_point kt s (om_share m)) (fun p => Ok (calc_amount_blinds p)).
Definition derive_asset_type_blind (m : omemo) (k : seckey X) : res (PF E) :=
  let '(kt, s) := as_scalar_bytes k in
  bind (derive_shared_point kt s (om_share m)) (fun p => Ok (calc_asset_type_blind p)).

(** ** Tracer memos *)
(** structs.rs 264-271, 275-282, 286-291. *)
Record enc_keys := mkEk { ek_rec : PG E; ek_attr : BG; ek_lock : bytes }.
Record dec_keys := mkDk { dk_rec : PF E; dk_attr : BF; dk_lock : bytes }.
Record tkeypair := mkTk { tk_enc : enc_keys; tk_dec : dec_keys }.
Definition ek_eqb (a b : enc_keys) : bool :=
  meqb (ek_rec a) (ek_rec b) && meqb (ek_attr a) (ek_attr b) && bytes_eqb (ek_lock a) (ek_lock b).
(** structs.rs 295-312 [generate], from the two scalars and the X25519 secret. *)
Definition tk_generate (a : PF E) (b : BF) (x : bytes) : tkeypair :=
  mkTk (mkEk (smul a (gB E)) (smul b BB) (x_pk H x)) (mkDk a b x).
(** structs.rs 351-359 [TracingPolicy]. *)
Record policy := mkPol { p_keys : enc_keys; p_asset : bool; p_ident : option IP }.
(** structs.rs 371-383 [TracerMemo]. *)
Definition rct := (PG E * PG E)%type.
Definition act := (BG * BG)%type.
Record tmemo := mkTm { tm_key : enc_keys; tm_amount : option (rct * rct); tm_type : option rct; tm_attrs : list act; tm_info : hctext }.

Definition enc_rec (k : enc_keys) (m r : PF E) : rct := elgamal_encrypt (gB E) m r (ek_rec k).
(** asset_tracer.rs 31-76 [TracerMemo::new]; [e] are the ephemeral bytes. *)
Definition tm_plain (ai : option (N * N * PF E * PF E)) (ti : option (N * PF E)) (attrs : list (N * act)) : bytes :=
  match ai with Some (lo, hi, _, _) => be_bytes 4 lo ++ be_bytes 4 hi | None => [] end ++
  match ti with Some (t, _) => be_bytes 32 t | None => [] end ++
  flat_map (fun a => be_bytes 4 (fst a)) attrs.
Definition tm_new (e : bytes) (k : enc_keys) (ai : option (N * N * PF E * PF E)) (ti : option (N * PF E)) (attrs : list (N * act)) : tmemo :=
  mkTm k
    (match ai with Some (lo, hi, bl, bh) => Some (enc_rec k (fofN lo) bl, enc_rec k (fofN hi) bh) | None => None end)
    (match ti with Some (t, b) => Some (enc_rec k (as_scalar t) b) | None => None end)
    (map snd attrs) (hybrid_encrypt_x H e (ek_lock k) (tm_plain ai ti attrs)).

(** asset_tracer.rs 139-159 [verify_amount], 163-177 [verify_asset_type]. *)
Definition verify_amount (m : tmemo) (sk : PF E) (expected : N) : res unit :=
  let '(lo, hi) := u64_to_u32_pair expected in
  match tm_amount m with
  | Some (cl, ch) =>
      if negb (meqb (smul (fofN lo) (gB E)) (elgamal_partial_decrypt cl sk)) ||
         negb (meqb (smul (fofN hi) (gB E)) (elgamal_partial_decrypt ch sk)) then Err else Ok tt
  | None => Err
  end.
Definition verify_asset_type (m : tmemo) (sk : PF E) (expected : N) : res unit :=
  match tm_type m with
  | Some c => if meqb (elgamal_partial_decrypt c sk) (smul (as_scalar expected) (gB E)) then Ok tt else Err
  | None => Err
  end.
(** asset_tracer.rs 183-197 [extract_asset_type]. *)
Fixpoint scan_types (m : tmemo) (sk : PF E) (l : list N) : res N :=
  match l with
  | [] => Err
  | t :: l' => match verify_asset_type m sk t with Ok _ => Ok t | _ => scan_types m sk l' end
  end.
Definition extract_asset_type (m : tmemo) (sk : PF E) (l : list N) : res N :=
  match l with [] => Err | _ => scan_types m sk l end.
(** asset_tracer.rs 202-221 [verify_identity_attributes]. *)
Definition verify_identity_attributes (m : tmemo) (sk : BF) (expected : list N) : res (list bool) :=
  if negb (Nat.eqb (length (tm_attrs m)) (length expected)) then Err else
  Ok (map (fun ca => meqb (elgamal_partial_decrypt (fst ca) sk) (smul (fofN (snd ca)) BB)) (combine (tm_attrs m) expected)).

(** [chunks(4)]: the last chunk may be shorter. *)
Fixpoint chunks_fuel (fuel : nat) (l : bytes) : list bytes :=
  match fuel with
  | O => []
  | Datatypes.S f => match l with [] => [] | _ => firstn 4 l :: chunks_fuel f (skipn 4 l) end
  end.
Definition chunks4 (l : bytes) : list bytes := chunks_fuel (length l) l.

(** asset_tracer.rs 80-134 [TracerMemo::decrypt]; the addition and the shift of the
    two halves cannot overflow. *)
Definition tm_amount_part (m : tmemo) (sk : PF E) (p : bytes) : res (option N * bytes) :=
  match tm_amount m with
  | Some _ =>
      if Nat.ltb (length p) 8 then Err else
      let lo := be_value (firstn 4 p) in let hi := be_value (firstn 4 (skipn 4 p)) in
      let amount := lo + hi * 2 ^ 32 in
      bind (verify_amount m sk amount) (fun _ => Ok (Some amount, skipn 8 p))
  | None => Ok (None, p)
  end.
Definition tm_type_part (m : tmemo) (sk : PF E) (p : bytes) : res (option N * bytes) :=
  match tm_type m with
  | Some _ =>
      if Nat.ltb (length p) 32 then Err else
      let t := be_value (firstn 32 p) in
      bind (verify_asset_type m sk t) (fun _ => Ok (Some t, skipn 32 p))
  | None => Ok (None, p)
  end.
Definition tm_decrypt (m : tmemo) (dk : dec_keys) : res (option N * option N * list N) :=
  bind (tm_amount_part m (dk_rec dk) (hybrid_decrypt_x H (tm_info m) (dk_lock dk))) (fun ap =>
  bind (tm_type_part m (dk_rec dk) (snd ap)) (fun tp =>
  if Nat.ltb (length (snd tp)) (length (tm_attrs m) * 4) then Err else
  bind (mapM u8_be_slice_to_u32 (chunks4 (snd tp))) (fun attrs =>
  bind (verify_identity_attributes m (dk_attr dk) attrs) (fun ok =>
  if forallb (fun x => x) ok then Ok (fst ap, fst tp, attrs) else Err)))).

(** ** Building records *)
(** structs.rs 630-642 [AssetRecordTemplate]. *)
Record template := mkTpl { t_amount : N; t_type : N; t_pk : pubkey X; t_rt : record_type; t_policies : list policy }.
(** structs.rs 175-190 [XfrAmount::from_blinds], 252-260 [XfrAssetType::from_blind]. *)
Definition amount_from_blinds (amount : N) (lo hi : PF E) : xfr_amount E :=
  let '(a, b) := u64_to_u32_pair amount in
  AConf (compress E (XfrModel.commit E (fofN a) lo)) (compress E (XfrModel.commit E (fofN b) hi)).
Definition type_from_blind (ty : N) (b : PF E) : xfr_asset_type E := TConf (compress E (XfrModel.commit E (as_scalar ty) b)).
Definition pk_num (pk : pubkey X) : N := be_value (pk_to_bytes X pk).
Definition unwrap {T} (r : res T) : res T := match r with Err => Panic | _ => r end.

(** asset_record.rs 338-410, the first half of [sample_blind_asset_record]: amount,
    type, blindings and owner memo. *)
Definition sample_fields (t : template) (r : rnd)
  : res (xfr_amount E * xfr_asset_type E * (PF E * PF E) * PF E * option omemo) :=
  match t_rt t with
  | RT_NonConfAmt_NonConfType => Ok (APlain (t_amount t), TPlain (t_type t), (f0, f0), f0, None)
  | RT_ConfAmt_NonConfType =>
      bind (unwrap (from_amount r (t_amount t) (t_pk t))) (fun mb =>
      Ok (amount_from_blinds (t_amount t) (fst (snd mb)) (snd (snd mb)), TPlain (t_type t), snd mb, f0, Some (fst mb)))
  | RT_NonConfAmt_ConfType =>
      bind (unwrap (from_asset_type r (t_type t) (t_pk t))) (fun mb =>
      Ok (APlain (t_amount t), type_from_blind (t_type t) (snd mb), (f0, f0), snd mb, Some (fst mb)))
  | RT_ConfAmt_ConfType =>
      bind (unwrap (from_amount_and_asset_type r (t_amount t) (t_type t) (t_pk t))) (fun mb =>
      let '(m, ab, tb) := mb in
      Ok (amount_from_blinds (t_amount t) (fst ab) (snd ab), type_from_blind (t_type t) tb, ab, tb, Some m))
  end.
(** asset_record.rs 417-442, and the same in 110-132 and 167-189: what a memo is
    made from. *)
Definition amount_info (p : policy) (conf : bool) (amount : N) (b : PF E * PF E) : option (N * N * PF E * PF E) :=
  if p_asset p && conf then let '(lo, hi) := u64_to_u32_pair amount in Some (lo, hi, fst b, snd b) else None.
Definition type_info (p : policy) (conf : bool) (ty : N) (b : PF E) : option (N * PF E) :=
  if p_asset p && conf then Some (ty, b) else None.
(** asset_record.rs 417-442: one memo for each policy that comes with attributes;
    [es] are the ephemeral bytes of the memos. *)
Fixpoint tracer_memos (es : nat -> bytes) (ps : list policy) (attrs : list (list (N * act)))
  (ca ct : bool) (amount ty : N) (ab : PF E * PF E) (tb : PF E) : list tmemo :=
  match ps, attrs with
  | p :: ps', a :: attrs' =>
      tm_new (es 0%nat) (p_keys p) (amount_info p ca amount ab) (type_info p ct ty tb) a
        :: tracer_memos (fun n => es (Datatypes.S n)) ps' attrs' ca ct amount ty ab tb
  | _, _ => []
  end.
(** asset_record.rs 326-443 [sample_blind_asset_record] and 446-464
    [build_open_asset_record]. *)
Definition build_open_asset_record (t : template) (r : rnd) (es : nat -> bytes) (attrs : list (list (N * act)))
  : res (oar E * list tmemo * option omemo) :=
  bind (sample_fields t r) (fun f =>
  let '(am, ty, ab, tb, om) := f in
  let '(ca, ct) := get_flags (t_rt t) in
  Ok (mkOar E (mkBar am ty (pk_num (t_pk t))) (t_amount t) (fst ab) (snd ab) (t_type t) tb,
      tracer_memos es (t_policies t) attrs ca ct (t_amount t) (t_type t) ab tb, om)).
(** asset_record.rs 467-478 [build_blind_asset_record]. *)
Definition build_blind_asset_record (t : template) (r : rnd) (es : nat -> bytes) (attrs : list (list (N * act)))
  : res (bar E * list tmemo * option omemo) :=
  bind (build_open_asset_record t r es attrs) (fun x => let '(o, tm, om) := x in Ok (o_bar E o, tm, om)).

(** asset_record.rs 481-542 [open_blind_asset_record]. *)
Definition open_blind_asset_record (b : bar E) (om : option omemo) (k : seckey X) : res (oar E) :=
  bind (match get_record_type E b with
  | RT_NonConfAmt_NonConfType =>
      bind (get_amount E (b_amount b)) (fun a =>
      bind (get_asset_type E (b_type b)) (fun t => Ok (a, t, (f0, f0), f0)))
  | RT_ConfAmt_NonConfType =>
      match om with
      | None => Err
      | Some m =>
          bind (decrypt_amount m k) (fun a =>
          bind (derive_amount_blinds m k) (fun ab =>
          bind (get_asset_type E (b_type b)) (fun t => Ok (a, t, ab, f0))))
      end
  | RT_NonConfAmt_ConfType =>
      match om with
      | None => Err
      | Some m =>
          bind (decrypt_asset_type m k) (fun t =>
          bind (derive_asset_type_blind m k) (fun tb =>
          bind (get_amount E (b_amount b)) (fun a => Ok (a, t, (f0, f0), tb))))
      end
  | RT_ConfAmt_ConfType =>
      match om with
      | None => Err
      | Some m =>
          bind (decrypt_amount_and_asset_type m k) (fun at_ =>
          bind (derive_amount_blinds m k) (fun ab =>
          bind (derive_asset_type_blind m k) (fun tb => Ok (fst at_, snd at_, ab, tb))))
      end
  end) (fun x => let '(a, t, ab, tb) := x in Ok (mkOar E b a (fst ab) (snd ab) t tb)).

(** ** Asset records *)
(** structs.rs 615-626 [AssetRecord]. *)
Record arecord := mkAr { ar_open : oar E; ar_policies : list policy; ar_idproofs : list (option IDP); ar_memos : list tmemo; ar_owner : option omemo }.
(** asset_record.rs 84-92 [from_open_asset_record_no_asset_tracing]. *)
Definition ar_untraced (o : oar E) : arecord := mkAr o [] [] [] None.
(** asset_record.rs 97-150 [from_open_asset_record_with_asset_tracing_but_no_identity]. *)
Definition ar_traced_no_identity (es : nat -> bytes) (o : oar E) (ps : list policy) : res arecord :=
  if existsb (fun p => match p_ident p with Some _ => true | None => false end) ps then Err else
  Ok (mkAr o ps (map (fun _ => None) ps)
        (tracer_memos es ps (map (fun _ => []) ps) (amount_conf E (o_bar E o)) (type_conf E (o_bar E o))
           (o_amount E o) (o_type E o) (o_blind_lo E o, o_blind_hi E o) (o_type_blind E o)) None).
(** asset_record.rs 155-236 [from_open_asset_record_with_tracing]; [open_cred p] is
    the outcome of the credential part for a policy that traces identities. *)
Definition ar_traced (open_cred : policy -> res (list (N * act) * IDP)) (es : nat -> bytes) (o : oar E) (ps : list policy) : res arecord :=
  bind (mapM (fun p => match p_ident p with
                       | Some _ => rmap (fun x => (fst x, Some (snd x))) (open_cred p)
                       | None => Ok ([], None)
                       end) ps) (fun l =>
  Ok (mkAr o ps (map snd l)
        (tracer_memos es ps (map fst l) (amount_conf E (o_bar E o)) (type_conf E (o_bar E o))
           (o_amount E o) (o_type E o) (o_blind_lo E o, o_blind_hi E o) (o_type_blind E o)) None)).
(** asset_record.rs 545-585 [build_record_input_from_template]; an opening carries its
    ciphertexts and its proof. *)
Definition build_record_input (t : template) (r : rnd) (es : nat -> bytes) (ids : list (option (list act * IDP) * list N)) : res arecord :=
  if negb (Nat.eqb (length (t_policies t)) (length ids)) then Err else
  if existsb (fun pi => match p_ident (fst pi), fst (snd pi) with None, Some _ => true | _, _ => false end) (combine (t_policies t) ids) then Err else
  let attrs := map (fun i => match fst i with None => [] | Some c => combine (snd i) (fst c) end) ids in
  let proofs := map (fun i => match fst i with None => None | Some c => Some (snd c) end) ids in
  bind (build_open_asset_record t r es attrs) (fun x =>
  let '(o, tm, om) := x in Ok (mkAr o (t_policies t) proofs tm om)).
End Records.
