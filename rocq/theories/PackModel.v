(** MessagePack, and the stored and signed forms of transfer notes
    (api/src/xfr/structs.rs, api/src/xfr/mod.rs 446-470).

    Representation and simplifications.
    - [pack] and [unpack] are rmp's encoding of serde values (crates rmp and rmp_serde 1.0,
      which are outside /repo, by their documented behaviour): the shortest head for every
      number, text, byte string, sequence and map.  Signed numbers, floats, booleans and
      extension types, which no modelled object uses, are left out; a text that is not UTF-8
      is not told apart.
    - The derived [Serialize] and [Deserialize] are modelled by combinators: structs are
      written by serde_json as maps from field names and by rmp_serde as sequences, and read
      from both; tuple structs with one field are transparent; a variant with a value is a
      map with one entry, one without is its name; [Option] is the unit value or the value.
    - Proofs, points, scalars, keys and signatures are written by their byte encodings
      (arguments of type [codec], see SerModel). *)
From Coq Require Import List NArith Bool String.
From Verif Require Import Base UtilsModel KeyModel SerModel SerSpec MemoModel.
Import ListNotations.
Local Open Scope N_scope.
Notation length := List.length (only parsing).

(** ** MessagePack *)
(** rmp encode: big-endian numbers of [n] bytes. *)
Definition be (n : nat) (x : N) : bytes := rev (le_bytes n x).
(** rmp [encode::write_uint]. *)
Definition pack_num (n : N) : bytes :=
  if n <? 128 then [n] else if n <? 256 then [204; n] else if n <? 65536 then 205 :: be 2 n
  else if n <? 2 ^ 32 then 206 :: be 4 n else 207 :: be 8 n.
(** rmp [encode::write_str_len], [write_bin_len], [write_array_len], [write_map_len]. *)
Definition str_head (n : N) : bytes :=
  if n <? 32 then [160 + n] else if n <? 256 then [217; n] else if n <? 65536 then 218 :: be 2 n else 219 :: be 4 n.
Definition bin_head (n : N) : bytes :=
  if n <? 256 then [196; n] else if n <? 65536 then 197 :: be 2 n else 198 :: be 4 n.
Definition seq_head (n : N) : bytes :=
  if n <? 16 then [144 + n] else if n <? 65536 then 220 :: be 2 n else 221 :: be 4 n.
Definition map_head (n : N) : bytes :=
  if n <? 16 then [128 + n] else if n <? 65536 then 222 :: be 2 n else 223 :: be 4 n.
(** rmp_serde [Serializer]. *)
Fixpoint pack (v : val) : bytes :=
  match v with
  | VUnit => [192]
  | VNum n => pack_num n
  | VStr t => str_head (N.of_nat (length t)) ++ t
  | VBytes b => bin_head (N.of_nat (length b)) ++ b
  | VSeq l => seq_head (N.of_nat (length l)) ++ flat_map pack l
  | VMap l => map_head (N.of_nat (length l)) ++ flat_map (fun e => pack (fst e) ++ pack (snd e)) l
  end.

(** rmp decode: a number of [n] bytes, and [n] bytes as they are. *)
Definition bytes_in (n : nat) (b : bytes) : res (bytes * bytes) :=
  if Nat.ltb (length b) n then Err else Ok (firstn n b, skipn n b).
Definition num_in (n : nat) (b : bytes) : res (N * bytes) :=
  rmap (fun p => (le_value (rev (fst p)), snd p)) (bytes_in n b).
Definition str_in (n : N) (b : bytes) : res (val * bytes) := rmap (fun p => (VStr (fst p), snd p)) (bytes_in (N.to_nat n) b).
Definition bin_in (n : N) (b : bytes) : res (val * bytes) := rmap (fun p => (VBytes (fst p), snd p)) (bytes_in (N.to_nat n) b).
Section Many.
Context (rd : bytes -> res (val * bytes)).
Fixpoint seq_in (n : nat) (b : bytes) : res (list val * bytes) :=
  match n with
  | O => Ok ([], b)
  | S n => bind (rd b) (fun p => rmap (fun q => (fst p :: fst q, snd q)) (seq_in n (snd p)))
  end.
Fixpoint map_in (n : nat) (b : bytes) : res (list (val * val) * bytes) :=
  match n with
  | O => Ok ([], b)
  | S n => bind (rd b) (fun k => bind (rd (snd k)) (fun v => rmap (fun q => ((fst k, fst v) :: fst q, snd q)) (map_in n (snd v))))
  end.
Definition vseq_in (n : N) (b : bytes) : res (val * bytes) := rmap (fun p => (VSeq (fst p), snd p)) (seq_in (N.to_nat n) b).
Definition vmap_in (n : N) (b : bytes) : res (val * bytes) := rmap (fun p => (VMap (fst p), snd p)) (map_in (N.to_nat n) b).
End Many.
Definition sized (n : nat) (k : N -> bytes -> res (val * bytes)) (b : bytes) : res (val * bytes) :=
  bind (num_in n b) (fun p => k (fst p) (snd p)).
(** rmp_serde [Deserializer]: one value and the bytes after it; [fuel] bounds the nesting
    (rmp_serde's limit is 1024). *)
Fixpoint unpack (fuel : nat) (b : bytes) : res (val * bytes) :=
  match fuel, b with
  | S f, t :: r =>
      if t <? 128 then Ok (VNum t, r)
      else if t <? 144 then vmap_in (unpack f) (t - 128) r
      else if t <? 160 then vseq_in (unpack f) (t - 144) r
      else if t <? 192 then str_in (t - 160) r
      else if t =? 192 then Ok (VUnit, r)
      else if t =? 196 then sized 1 bin_in r else if t =? 197 then sized 2 bin_in r else if t =? 198 then sized 4 bin_in r
      else if t =? 204 then sized 1 (fun n b => Ok (VNum n, b)) r else if t =? 205 then sized 2 (fun n b => Ok (VNum n, b)) r
      else if t =? 206 then sized 4 (fun n b => Ok (VNum n, b)) r else if t =? 207 then sized 8 (fun n b => Ok (VNum n, b)) r
      else if t =? 217 then sized 1 str_in r else if t =? 218 then sized 2 str_in r else if t =? 219 then sized 4 str_in r
      else if t =? 220 then sized 2 (vseq_in (unpack f)) r else if t =? 221 then sized 4 (vseq_in (unpack f)) r
      else if t =? 222 then sized 2 (vmap_in (unpack f)) r else if t =? 223 then sized 4 (vmap_in (unpack f)) r
      else Err
  | _, _ => Err
  end.
(** rmp_serde [from_slice]: trailing bytes are ignored. *)
Definition from_slice (b : bytes) : res val := rmap fst (unpack 1024 b).

(** ** Derived serialization *)
(** How a type is written and read in a format. *)
Record form (A : Type) := mkForm { put : source -> A -> val; get : source -> val -> res A }.
Arguments put {A}. Arguments get {A}. Arguments mkForm {A}.

Definition obj {A} (c : codec A) : form A := mkForm (write c) (read c).
(** serde: [Vec<T>]. *)
Definition vec {A} (c : form A) : form (list A) :=
  mkForm (fun f l => VSeq (map (put c f) l)) (fun f v => match v with VSeq l => mapM (get c f) l | _ => Err end).
(** serde: [Option<T>]. *)
Definition opt {A} (c : form A) : form (option A) :=
  mkForm (fun f o => match o with Some x => put c f x | None => VUnit end)
         (fun f v => match v with VUnit => Ok None | _ => rmap Some (get c f v) end).
(** serde: tuples of two. *)
Definition tup {A B} (a : form A) (b : form B) : form (A * B) :=
  mkForm (fun f x => VSeq [put a f (fst x); put b f (snd x)])
         (fun f v => match v with VSeq [x; y] => bind (get a f x) (fun x => bind (get b f y) (fun y => Ok (x, y))) | _ => Err end).
(** serde: [[u8; n]]. *)
Definition array (n : nat) : form bytes :=
  mkForm (fun _ b => write_vec b)
         (fun _ v => bind (read_vec v) (fun b => if Nat.eqb (length b) n then Ok b else Err)).

(** The fields of a struct, as nested pairs. *)
Record fields (A : Type) := mkFields {
  names : list bytes;
  fput : source -> A -> list val;
  fget : source -> list val -> res A (* the values in the order of the fields *) }.
Arguments names {A}. Arguments fput {A}. Arguments fget {A}. Arguments mkFields {A}.
Definition fnil : fields unit := mkFields [] (fun _ _ => []) (fun _ l => match l with [] => Ok tt | _ => Err end).
Definition fcons {A B} (n : bytes) (a : form A) (b : fields B) : fields (A * B) :=
  mkFields (n :: names b) (fun f x => put a f (fst x) :: fput b f (snd x))
    (fun f l => match l with
                | v :: l => bind (get a f v) (fun x => bind (fget b f l) (fun y => Ok (x, y)))
                | [] => Err end).
(** serde_derive: the value of the field [n], which must occur once; entries with other
    names are skipped.  (An absent [Option] field would be read as [None]; the forms
    written here always contain it.) *)
Fixpoint pick (n : bytes) (l : list (val * val)) : res (option val) :=
  match l with
  | [] => Ok None
  | (VStr k, v) :: r =>
      if bytes_eqb k n then bind (pick n r) (fun o => match o with None => Ok (Some v) | Some _ => Err end) else pick n r
  | _ => Err
  end.
Definition pick1 (l : list (val * val)) (n : bytes) : res val :=
  bind (pick n l) (fun o => match o with Some v => Ok v | None => Err end).
Definition strct {A T} (fs : fields T) (to : A -> T) (from : T -> A) : form A :=
  mkForm (fun f x => if human f then VMap (combine (map VStr (names fs)) (fput fs f (to x))) else VSeq (fput fs f (to x)))
         (fun f v => match v with
                     | VSeq l => rmap from (fget fs f l)
                     | VMap l => bind (mapM (pick1 l) (names fs)) (fun l => rmap from (fget fs f l))
                     | _ => Err end).
(** serde_derive: a variant with one value. *)
Definition vput (n : bytes) (v : val) : val := VMap [(VStr n, v)].

(** ** Transfer notes *)
Section Notes.
Context {RP RS G1 G2 BS PK XK SG RProof MProof : Type}.
(** Ristretto points and scalars, BLS12-381 points and scalars, public keys, x25519 keys,
    signatures, range proofs and asset mixing proofs. *)
Context (rp : codec RP) (rs : codec RS) (g1 : codec G1) (g2 : codec G2) (bs : codec BS) (pk : codec PK) (xk : codec XK)
        (sg : codec SG) (rproof : codec RProof) (mproof : codec MProof).

(** structs.rs 114-122 [XfrAmount]. *)
Inductive amount := AmConf (lo hi : bytes) | AmOpen (n : N).
Definition name_conf := chars "Confidential".
Definition name_open := chars "NonConfidential".
Definition f_amount : form amount :=
  mkForm
    (fun f a => match a with
                | AmConf lo hi => vput name_conf (put (tup (obj compressed) (obj compressed)) f (lo, hi))
                | AmOpen n => vput name_open (write_amount n) end)
    (fun f v => match v with
                | VMap [(VStr k, w)] =>
                    if bytes_eqb k name_conf then rmap (fun p => AmConf (fst p) (snd p)) (get (tup (obj compressed) (obj compressed)) f w)
                    else if bytes_eqb k name_open then rmap AmOpen (read_amount w) else Err
                | _ => Err end).
(** structs.rs 192-199 [XfrAssetType]; 31-35 [AssetType]. *)
Inductive atype := AtConf (c : bytes) | AtOpen (t : bytes).
Definition f_atype : form atype :=
  mkForm
    (fun f a => match a with
                | AtConf c => vput name_conf (put (obj compressed) f c)
                | AtOpen t => vput name_open (put (array 32) f t) end)
    (fun f v => match v with
                | VMap [(VStr k, w)] =>
                    if bytes_eqb k name_conf then rmap AtConf (get (obj compressed) f w)
                    else if bytes_eqb k name_open then rmap AtOpen (get (array 32) f w) else Err
                | _ => Err end).
(** structs.rs 93-103 [BlindAssetRecord]. *)
Record bar := mkBar { b_amount : amount; b_type : atype; b_key : PK }.
Definition f_bar : form bar :=
  strct (fcons (chars "amount") f_amount (fcons (chars "asset_type") f_atype (fcons (chars "public_key") (obj pk) fnil)))
    (fun b => (b_amount b, (b_type b, (b_key b, tt)))) (fun '(a, (t, (k, _))) => mkBar a t k).

(** crypto/src/basic/chaum_pedersen.rs 11-19, 127-132. *)
Record cpp := mkCpp { cp_c3 : RP; cp_c4 : RP; cp_z1 : RS; cp_z2 : RS; cp_z3 : RS }.
Definition f_cpp : form cpp :=
  strct (fcons (chars "c3") (obj rp) (fcons (chars "c4") (obj rp) (fcons (chars "z1") (obj rs) (fcons (chars "z2") (obj rs) (fcons (chars "z3") (obj rs) fnil)))))
    (fun p => (cp_c3 p, (cp_c4 p, (cp_z1 p, (cp_z2 p, (cp_z3 p, tt)))))) (fun '(a, (b, (c, (d, (e, _))))) => mkCpp a b c d e).
Record cppx := mkCppx { cx_eq : cpp; cx_zero : option cpp }.
Definition f_cppx : form cppx :=
  strct (fcons (chars "c1_eq_c2") f_cpp (fcons (chars "zero") (opt f_cpp) fnil)) (fun p => (cx_eq p, (cx_zero p, tt))) (fun '(a, (b, _)) => mkCppx a b).
(** structs.rs 668-678 [XfrRangeProof]. *)
Record xrp := mkXrp { xr_proof : RProof; xr_low : bytes; xr_high : bytes }.
Definition f_xrp : form xrp :=
  strct (fcons (chars "range_proof") (obj rproof) (fcons (chars "xfr_diff_commitment_low") (obj compressed) (fcons (chars "xfr_diff_commitment_high") (obj compressed) fnil)))
    (fun p => (xr_proof p, (xr_low p, (xr_high p, tt)))) (fun '(a, (b, (c, _))) => mkXrp a b c).
(** structs.rs 644-657 [AssetTypeAndAmountProof]; asset_mixer.rs 14-16 [AssetMixProof]. *)
Inductive aaproof := PMix (m : MProof) | PAmount (r : xrp) | PAsset (c : cppx) | PAll (r : xrp) (c : cppx) | PNone.
Definition f_aaproof : form aaproof :=
  mkForm
    (fun f p => match p with
                | PMix m => vput (chars "AssetMix") (put (obj mproof) f m)
                | PAmount r => vput (chars "ConfAmount") (put f_xrp f r)
                | PAsset c => vput (chars "ConfAsset") (put f_cppx f c)
                | PAll r c => vput (chars "ConfAll") (put (tup f_xrp f_cppx) f (r, c))
                | PNone => VStr (chars "NoProof") end)
    (fun f v => match v with
                | VMap [(VStr k, w)] =>
                    if bytes_eqb k (chars "AssetMix") then rmap PMix (get (obj mproof) f w)
                    else if bytes_eqb k (chars "ConfAmount") then rmap PAmount (get f_xrp f w)
                    else if bytes_eqb k (chars "ConfAsset") then rmap PAsset (get f_cppx f w)
                    else if bytes_eqb k (chars "ConfAll") then rmap (fun p => PAll (fst p) (snd p)) (get (tup f_xrp f_cppx) f w)
                    else if bytes_eqb k (chars "NoProof") then match w with VUnit => Ok PNone | _ => Err end
                    else Err
                | VStr k => if bytes_eqb k (chars "NoProof") then Ok PNone else Err
                | _ => Err end).

(** crypto/src/basic/elgamal.rs 15-22 [ElGamalCiphertext], derived. *)
Definition f_ct {A} (c : codec A) : form (A * A) :=
  strct (fcons (chars "e1") (obj c) (fcons (chars "e2") (obj c) fnil)) (fun p => (fst p, (snd p, tt))) (fun '(a, (b, _)) => (a, b)).
(** crypto/src/basic/pedersen_elgamal.rs 10-25 [PedersenElGamalEqProof]; the ciphertext is
    written by its 64 bytes ([ct64]; crypto/src/basic/elgamal.rs). *)
Context (ct64 : codec (RP * RP)).
Record peq := mkPeq { pq_z1 : RS; pq_z2 : RS; pq_e1 : RP * RP; pq_c1 : RP }.
Definition f_peq : form peq :=
  strct (fcons (chars "z1") (obj rs) (fcons (chars "z2") (obj rs) (fcons (chars "e1") (obj ct64) (fcons (chars "c1") (obj rp) fnil))))
    (fun p => (pq_z1 p, (pq_z2 p, (pq_e1 p, (pq_c1 p, tt))))) (fun '(a, (b, (c, (d, _)))) => mkPeq a b c d).
(** crypto/src/anon_creds.rs 139-145 [CredentialPoK]; confidential_anon_creds.rs 102-111
    [CACPoK]. *)
Record cpok := mkCpok { ck_blind : G2; ck_t : BS; ck_sk : BS; ck_attrs : list BS }.
Definition f_cpok : form cpok :=
  strct (fcons (chars "blinding") (obj g2) (fcons (chars "response_t") (obj bs) (fcons (chars "response_sk") (obj bs) (fcons (chars "response_attrs") (vec (obj bs)) fnil))))
    (fun p => (ck_blind p, (ck_t p, (ck_sk p, (ck_attrs p, tt))))) (fun '(a, (b, (c, (d, _)))) => mkCpok a b c d).
Record cac := mkCac { ca_pok : cpok; ca_ct : list (G1 * G1); ca_rands : list BS }.
Definition f_cac : form cac :=
  strct (fcons (chars "pok") f_cpok (fcons (chars "cm_ct") (vec (f_ct g1)) (fcons (chars "response_rands") (vec (obj bs)) fnil)))
    (fun p => (ca_pok p, (ca_ct p, (ca_rands p, tt)))) (fun '(a, (b, (c, _))) => mkCac a b c).
(** structs.rs 680-690 [AssetTracingProofs], 659-666 [XfrProofs]. *)
Record atproof := mkAtp { tp_data : list peq; tp_in : list (list (option cac)); tp_out : list (list (option cac)) }.
Definition f_atproof : form atproof :=
  strct (fcons (chars "asset_type_and_amount_proofs") (vec f_peq)
        (fcons (chars "inputs_identity_proofs") (vec (vec (opt f_cac))) (fcons (chars "outputs_identity_proofs") (vec (vec (opt f_cac))) fnil)))
    (fun p => (tp_data p, (tp_in p, (tp_out p, tt)))) (fun '(a, (b, (c, _))) => mkAtp a b c).
Record xproofs := mkXp { xp_main : aaproof; xp_trace : atproof }.
Definition f_xproofs : form xproofs :=
  strct (fcons (chars "asset_type_and_amount_proof") f_aaproof (fcons (chars "asset_tracing_proof") f_atproof fnil))
    (fun p => (xp_main p, (xp_trace p, tt))) (fun '(a, (b, _)) => mkXp a b).

(** structs.rs 262-271 [AssetTracerEncKeys]; [ElGamalEncKey] is transparent. *)
Record tkeys := mkTk { tk_data : RP; tk_attrs : G1; tk_info : XK }.
Definition f_tkeys : form tkeys :=
  strct (fcons (chars "record_data_enc_key") (obj rp) (fcons (chars "attrs_enc_key") (obj g1) (fcons (chars "lock_info_enc_key") (obj xk) fnil)))
    (fun p => (tk_data p, (tk_attrs p, (tk_info p, tt)))) (fun '(a, (b, (c, _))) => mkTk a b c).
(** crypto/src/basic/hybrid_encryption.rs 118-123 [ZeiHybridCiphertext]. *)
Definition f_hybrid : form (bytes * XK) :=
  strct (fcons (chars "ciphertext") (obj ctext) (fcons (chars "ephemeral_public_key") (obj xk) fnil)) (fun p => (fst p, (snd p, tt))) (fun '(a, (b, _)) => (a, b)).
(** structs.rs 371-383 [TracerMemo]. *)
Record tmemo := mkTm { tm_keys : tkeys; tm_amount : option ((RP * RP) * (RP * RP)); tm_type : option (RP * RP); tm_attrs : list (G1 * G1); tm_info : bytes * XK }.
Definition f_tmemo : form tmemo :=
  strct (fcons (chars "enc_key") f_tkeys (fcons (chars "lock_amount") (opt (tup (f_ct rp) (f_ct rp))) (fcons (chars "lock_asset_type") (opt (f_ct rp))
        (fcons (chars "lock_attributes") (vec (f_ct g1)) (fcons (chars "lock_info") f_hybrid fnil)))))
    (fun p => (tm_keys p, (tm_amount p, (tm_type p, (tm_attrs p, (tm_info p, tt)))))) (fun '(a, (b, (c, (d, (e, _))))) => mkTm a b c d e).
(** structs.rs 385-394, 702-879 [OwnerMemo]. *)
Definition f_memo : form omemo := mkForm (fun f m => if human f then memo_map m else memo_seq m) read_memo.

(** structs.rs 78-91 [XfrBody], 69-76 [XfrNote], xfr/sig.rs 656-661 [XfrMultiSig]. *)
Record xbody := mkXb { xb_in : list bar; xb_out : list bar; xb_proofs : xproofs; xb_tmemos : list (list tmemo); xb_omemos : list (option omemo) }.
Definition f_body : form xbody :=
  strct (fcons (chars "inputs") (vec f_bar) (fcons (chars "outputs") (vec f_bar) (fcons (chars "proofs") f_xproofs
        (fcons (chars "asset_tracing_memos") (vec (vec f_tmemo)) (fcons (chars "owners_memos") (vec (opt f_memo)) fnil)))))
    (fun b => (xb_in b, (xb_out b, (xb_proofs b, (xb_tmemos b, (xb_omemos b, tt)))))) (fun '(a, (b, (c, (d, (e, _))))) => mkXb a b c d e).
Definition f_multisig : form (list SG) :=
  strct (fcons (chars "signatures") (vec (obj sg)) fnil) (fun s => (s, tt)) (fun '(s, _) => s).
Record xnote := mkXn { xn_body : xbody; xn_sig : list SG }.
Definition f_note : form xnote :=
  strct (fcons (chars "body") f_body (fcons (chars "multisig") f_multisig fnil)) (fun n => (xn_body n, (xn_sig n, tt))) (fun '(a, (b, _)) => mkXn a b).

(** xfr/mod.rs 446-470: the bytes that are signed and verified,
    [body.serialize(&mut rmp_serde::Serializer::new(&mut vec))]. *)
Definition signed_bytes (b : xbody) : bytes := pack (put f_body Msgpack b).
(** A note written with rmp_serde and read back. *)
Definition note_bytes (n : xnote) : bytes := pack (put f_note Msgpack n).
Definition note_of_bytes (b : bytes) : res xnote := bind (from_slice b) (get f_note Msgpack).
End Notes.
Arguments amount : clear implicits.
Arguments atype : clear implicits.

(** xfr/mod.rs 445-470: the signatures of a transfer.  The keys and signatures are those of
    KeyModel, written by [pk_to_bytes] and [sig_to_bytes]. *)
Section Signing.
Context {RP RS G1 G2 BS XK RProof MProof : Type}.
Context (rp : codec RP) (rs : codec RS) (g1 : codec G1) (g2 : codec G2) (bs : codec BS) (xk : codec XK)
        (rproof : codec RProof) (mproof : codec MProof) (ct64 : codec (RP * RP)).
Context (X : schemes) (srt : forall A : Type, (A -> bytes) -> list A -> list A).
Definition key_codec : codec (pubkey X) := mkCodec _ (pk_to_bytes X) (pk_from_bytes X).
Definition sig_codec : codec (signature X) := mkCodec _ (sig_to_bytes X) (sig_from_bytes X).
Definition message := signed_bytes rp rs g1 g2 bs key_codec xk rproof mproof ct64.
(** mod.rs 446-455 [compute_transfer_multisig]. *)
Definition compute_transfer_multisig b (ks : list (keypair X)) : res (list (signature X)) := multi_sign X srt ks (message b).
(** mod.rs 458-470 [verify_transfer_multisig]. *)
Definition verify_transfer_multisig (n : xnote (PK := pubkey X) (SG := signature X)) : res unit :=
  multi_verify X srt (xn_sig n) (map b_key (xb_in (xn_body n))) (message (xn_body n)).
End Signing.
