(** Model of asset tracing: the tracing proofs of a transfer and their verification
    (api/src/xfr/proofs.rs 38-492), and what a tracer does with a transfer
    (api/src/xfr/mod.rs 853-930).

    Representation and simplifications.
    - A [LinearMap] is the list of its entries in order of insertion.
    - The verifier of identity proofs (ac_confidential_verify, see AcModel) is the
      parameter [ac_verify]; reveal policies, proofs and credential commitments are
      opaque types.
    - The random generator of the prover is a stream for each proof; the verifier's
      is one stream.  [t0] is the fresh transcript (proofs.rs 53, 341). *)
From Coq Require Import List NArith Bool.
From Verif Require Import Base Field UtilsModel XfrModel SigmaModel NoteModel KeyModel HybModel RecordModel.
Import ListNotations.
Local Open Scope N_scope.

Section Trace.
Context (H : hsuite) (E : pgroup) (O : oracles E) (as_scalar : N -> PF E).
Context {BF : Field} {BG : Mod BF} (BB : BG) (IP IDP CM : Type).
Context (ac_verify : IP -> BG -> CM -> list (BG * BG) -> IDP -> res unit).
Context (chal : oracle (F := PF E) (G := PG E)) (t0 : transcript (F := PF E) (G := PG E)).
Local Notation enc_keys := (enc_keys E (BG := BG)).
Local Notation policy := (policy E (BG := BG) IP).
Local Notation tmemo := (tmemo E (BG := BG)).
Local Notation rct := (rct E).
Local Notation arecord := (arecord E (BG := BG) IP IDP).
Local Notation pe_proof := (pe_proof (F := PF E) (G := PG E)).

(** structs.rs 80-91 [XfrBody], 683-690 [AssetTracingProofs]. *)
Record tbody := mkTb {
  tb_body : xbody E O;
  tb_tproofs : list pe_proof;
  tb_idin : list (list (option IDP));
  tb_idout : list (list (option IDP));
  tb_memos : list (list tmemo);
  tb_owners : list (option omemo) }.
(** mod.rs 553-561 [XfrNotePoliciesRef]. *)
Record npol := mkNp { np_valid : bool; np_in : list (list policy); np_insig : list (option CM); np_out : list (list policy); np_outsig : list (option CM) }.

(** The entry API of a linear map: [map.entry(k).or_insert(vec![]).push(v)]. *)
Fixpoint lm_push {V : Type} (m : list (PG E * list V)) (k : PG E) (v : V) : list (PG E * list V) :=
  match m with
  | [] => [(k, [v])]
  | (k', l) :: m' => if meqb k' k then (k', l ++ [v]) :: m' else (k', l) :: lm_push m' k v
  end.
Definition lm_collect {V : Type} (l : list (PG E * V)) (m : list (PG E * list V)) : list (PG E * list V) :=
  fold_left (fun m kv => lm_push m (fst kv) (snd kv)) l m.

Definition hidden (b : bar E) : bool :=
  match get_record_type E b with RT_NonConfAmt_NonConfType => false | _ => true end.

(** ** Prover *)
(** proofs.rs 125-151 [collect_records_and_memos_by_keys]: what one record pushes. *)
Definition prover_slots (r : arecord) : list (PG E * (arecord * tmemo)) :=
  flat_map (fun pm => if p_asset E IP (fst pm) && hidden (o_bar E (ar_open E IP IDP r))
                      then [(ek_rec E (p_keys E IP (fst pm)), (r, snd pm))] else [])
    (combine (ar_policies E IP IDP r) (ar_memos E IP IDP r)).
(** proofs.rs 77-111: one record and one of its memos. *)
Definition prove_parts (r : oar E) (m : tmemo) : res (list (PF E * PF E * rct * PG E)) :=
  bind (match b_amount (o_bar E r) with
        | AConf cl ch =>
            match tm_amount E m with
            | None => Err
            | Some (el, eh) =>
                bind (XfrModel.opt (decompress E cl)) (fun gl => bind (XfrModel.opt (decompress E ch)) (fun gh =>
                let '(lo, hi) := u64_to_u32_pair (o_amount E r) in
                Ok [(fofN lo, o_blind_lo E r, el, gl); (fofN hi, o_blind_hi E r, eh, gh)]))
            end
        | APlain _ => Ok []
        end) (fun a =>
  bind (match b_type (o_bar E r) with
        | TConf c =>
            match tm_type E m with
            | None => Err
            | Some e => bind (XfrModel.opt (decompress E c)) (fun g => Ok [(as_scalar (o_type E r), o_type_blind E r, e, g)])
            end
        | TPlain _ => Ok []
        end) (fun t => Ok (a ++ t))).
(** proofs.rs 66-123 [build_same_key_asset_type_amount_tracing_proof]. *)
Definition same_key_proof (g : rng) (key : PG E) (l : list (arecord * tmemo)) : res pe_proof :=
  bind (mapM (fun rm => prove_parts (ar_open E IP IDP (fst rm)) (snd rm)) l) (fun ps =>
  let ps := concat ps in
  pe_aggregate_prove (gB E) (gBb E) chal t0 g (map (fun p => fst (fst (fst p))) ps) (map (fun p => snd (fst (fst p))) ps)
    key (map (fun p => snd (fst p)) ps) (map snd ps)).
(** proofs.rs 38-64 [asset_amount_tracing_proofs]; [gs k] is the stream for the
    [k]-th key. *)
Definition prover_map (ins outs : list arecord) := lm_collect (flat_map prover_slots (ins ++ outs)) [].
Fixpoint key_proofs (gs : nat -> rng) (m : list (PG E * list (arecord * tmemo))) : res (list pe_proof) :=
  match m with
  | [] => Ok []
  | (k, l) :: m' =>
      bind (same_key_proof (gs 0%nat) k l) (fun p =>
      bind (key_proofs (fun n => gs (S n)) m') (fun ps => Ok (p :: ps)))
  end.
Definition asset_amount_tracing_proofs (gs : nat -> rng) (ins outs : list arecord) : res (list pe_proof) :=
  key_proofs gs (prover_map ins outs).
(** mod.rs 241-307 [gen_xfr_body]: the parts concerned with tracing; [atp] is the
    outcome of the rest (XfrModel.gen_xfr_body). *)
Definition gen_traced_body (gs : nat -> rng) (atp : res (at_proof E O)) (ins outs : list arecord) : res tbody :=
  bind atp (fun p =>
  bind (asset_amount_tracing_proofs gs ins outs) (fun tp =>
  Ok (mkTb (mkXbody E O (map (fun r => o_bar E (ar_open E IP IDP r)) ins) (map (fun r => o_bar E (ar_open E IP IDP r)) outs) p)
        tp (map (ar_idproofs E IP IDP) ins) (map (ar_idproofs E IP IDP) outs) (map (ar_memos E IP IDP) (ins ++ outs)) (map (ar_owner E IP IDP) outs)))).

(** ** Verifier *)
(** proofs.rs 198-223 [collect_bars_and_memos_by_keys]: what one record pushes. *)
Definition verifier_slots (x : list policy * bar E * list tmemo) : list (PG E * (bar E * tmemo)) :=
  let '(ps, b, ms) := x in
  if hidden b then
    flat_map (fun pm => if p_asset E IP (fst pm) then [(ek_rec E (p_keys E IP (fst pm)), (b, snd pm))] else []) (combine ps ms)
  else [].
Definition collect_bars (m : list (PG E * list (bar E * tmemo))) (bars : list (bar E)) (memos : list (list tmemo)) (ps : list (list policy))
  : res (list (PG E * list (bar E * tmemo))) :=
  if negb (Nat.eqb (length ps) (length bars)) || negb (Nat.eqb (length bars) (length memos)) then Err else
  Ok (lm_collect (flat_map verifier_slots (combine (combine ps bars) memos)) m).
(** proofs.rs 357-380 [collect_records_memos_by_key]; the slices panic when there are
    fewer memos than inputs. *)
Definition collect_by_key (b : tbody) (ips ops : list (list policy)) : res (list (PG E * list (bar E * tmemo))) :=
  let n := length (x_in E O (tb_body b)) in
  if Nat.ltb (length (tb_memos b)) n then Panic else
  bind (collect_bars [] (x_in E O (tb_body b)) (firstn n (tb_memos b)) ips) (fun m =>
  collect_bars m (x_out E O (tb_body b)) (skipn n (tb_memos b)) ops).
(** proofs.rs 442-490 [extract_ciphertext_and_commitments], one record. *)
Definition extract_parts (b : bar E) (m : tmemo) : res (list (rct * PG E)) :=
  if (match tm_amount E m with None => true | _ => false end) && amount_conf E b then Err else
  bind (match tm_amount E m with
        | Some (el, eh) =>
            match b_amount b with
            | APlain _ => Err
            | AConf cl ch =>
                bind (XfrModel.opt (decompress E cl)) (fun gl => bind (XfrModel.opt (decompress E ch)) (fun gh => Ok [(el, gl); (eh, gh)]))
            end
        | None => Ok []
        end) (fun a =>
  if (match tm_type E m with None => true | _ => false end) && type_conf E b then Err else
  bind (match tm_type E m with
        | Some e => match b_type b with TPlain _ => Err | TConf c => bind (XfrModel.opt (decompress E c)) (fun g => Ok [(e, g)]) end
        | None => Ok []
        end) (fun t => Ok (a ++ t))).
Definition extract_all (l : list (bar E * tmemo)) : res (list rct * list (PG E)) :=
  bind (mapM (fun bm => extract_parts (fst bm) (snd bm)) l) (fun ps => Ok (map fst (concat ps), map snd (concat ps))).
(** proofs.rs 286-346 [batch_verify_asset_tracing_proofs]: the first loop for one
    body, the second loop, the batch. *)
Definition body_map (b : tbody) (ips ops : list (list policy)) : res (list (PG E * list (bar E * tmemo)) * list pe_proof) :=
  bind (collect_by_key b ips ops) (fun m =>
  if negb (Nat.eqb (length m) (length (tb_tproofs b))) then Err else Ok (m, tb_tproofs b)).
Definition body_instances (mp : list (PG E * list (bar E * tmemo)) * list pe_proof) : res (list (pe_instance (F := PF E) (G := PG E))) :=
  mapM (fun klp => let '((k, l), p) := klp in bind (extract_all l) (fun cc => Ok (mkPi k (fst cc) (snd cc) p)))
    (combine (fst mp) (snd mp)).
Definition batch_verify_asset_tracing (g : rng) (bodies : list tbody) (ips ops : list (list (list policy))) : res unit :=
  bind (mapM (fun x => let '(b, (i, o)) := x in body_map b i o) (combine bodies (combine ips ops))) (fun maps =>
  bind (mapM body_instances maps) (fun is =>
  pe_batch_verify (gB E) (gBb E) chal t0 g (concat is))).
(** proofs.rs 382-440 [verify_identity_proofs]. *)
Definition verify_identity_slot (sig : option CM) (x : policy * (tmemo * option IDP)) : res unit :=
  let '(p, (m, pf)) := x in
  match p_ident E IP p, pf with
  | Some ip, Some pf =>
      match sig with
      | None => Err
      | Some c => ac_verify ip (ek_attr E (p_keys E IP p)) c (tm_attrs E m) pf
      end
  | None, None => Ok tt
  | _, _ => Err
  end.
Definition verify_identity_record (x : list policy * (list tmemo * (list (option IDP) * option CM))) : res unit :=
  let '(ps, (ms, (pfs, sig))) := x in
  if negb (Nat.eqb (length ps) (length ms)) || negb (Nat.eqb (length ps) (length pfs)) then Err else
  rmap (fun _ => tt) (mapM (verify_identity_slot sig) (combine ps (combine ms pfs))).
Definition is_nil {T : Type} (l : list T) : bool := match l with [] => true | _ => false end.
Definition verify_identity_proofs (ps : list (list policy)) (memos : list (list tmemo)) (proofs : list (list (option IDP))) (sigs : list (option CM)) : res unit :=
  let n := length ps in
  if negb (Nat.eqb (length memos) (length proofs)) || negb (Nat.eqb n (length sigs)) then Err else
  bind (if Nat.eqb n 0 then
          if negb (forallb is_nil memos) || negb (forallb is_nil proofs) then Err else Ok tt
        else if negb (Nat.eqb n (length memos)) then Err else Ok tt) (fun _ =>
  rmap (fun _ => tt) (mapM verify_identity_record (combine ps (combine memos (combine proofs sigs))))).
(** proofs.rs 262-282: the identity proofs of one body. *)
Definition verify_identities (x : tbody * npol) : res unit :=
  let '(b, np) := x in
  let n := length (x_in E O (tb_body b)) in
  if Nat.ltb (length (tb_memos b)) n then Panic else
  bind (verify_identity_proofs (np_in np) (firstn n (tb_memos b)) (tb_idin b) (np_insig np)) (fun _ =>
  verify_identity_proofs (np_out np) (skipn n (tb_memos b)) (tb_idout b) (np_outsig np)).
(** proofs.rs 225-284 [batch_verify_tracer_tracing_proof]. *)
Definition batch_verify_tracing (g : rng) (bodies : list tbody) (ps : list npol) : res unit :=
  if negb (Nat.eqb (length bodies) (length ps)) then Err else
  if negb (forallb np_valid ps) then Err else
  bind (batch_verify_asset_tracing g bodies (map np_in ps) (map np_out ps)) (fun _ =>
  rmap (fun _ => tt) (mapM verify_identities (combine bodies ps))).
(** mod.rs 661-672 [batch_verify_xfr_bodies]. *)
Definition batch_verify_traced_bodies (g : rng) (bodies : list tbody) (ps : list npol) : res unit :=
  bind (verify_bodies E O as_scalar (map tb_body bodies)) (fun _ => batch_verify_tracing g bodies ps).

(** ** Tracer *)
(** mod.rs 853-874 [find_tracing_memos]. *)
Definition find_tracing_memos (b : tbody) (k : enc_keys) : res (list (bar E * tmemo)) :=
  let bars := x_in E O (tb_body b) ++ x_out E O (tb_body b) in
  if negb (Nat.eqb (length bars) (length (tb_memos b))) then Err else
  Ok (flat_map (fun bm => map (fun m => (fst bm, m)) (filter (fun m => ek_eqb E (tm_key E m) k) (snd bm))) (combine bars (tb_memos b))).
(** mod.rs 889-930 [extract_tracing_info], one memo. *)
Definition trace_one (dk : dec_keys E (BF := BF)) (bm : bar E * tmemo) : res (N * N * list N * N) :=
  let '(b, m) := bm in
  bind (tm_decrypt H E as_scalar BB m dk) (fun d =>
  let '(ao, to, attrs) := d in
  bind (match tm_amount E m, ao with None, _ => get_amount E (b_amount b) | Some _, None => Err | Some _, Some a => Ok a end) (fun a =>
  bind (match tm_type E m, to with None, _ => get_asset_type E (b_type b) | Some _, None => Err | Some _, Some t => Ok t end) (fun t =>
  Ok (a, t, attrs, b_pk b)))).
Definition extract_tracing_info (l : list (bar E * tmemo)) (dk : dec_keys E (BF := BF)) : res (list (N * N * list N * N)) := mapM (trace_one dk) l.
(** mod.rs 880-886 [trace_assets]. *)
Definition trace_assets (b : tbody) (tk : tkeypair E (BG := BG)) : res (list (N * N * list N * N)) :=
  bind (find_tracing_memos b (tk_enc E tk)) (fun l => extract_tracing_info l (tk_dec E tk)).
End Trace.
