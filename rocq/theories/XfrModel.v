(** Model of the amount / asset-type part of confidential transfers:
    api/src/xfr/mod.rs (classification, generation, batch verification) and
    api/src/xfr/proofs.rs (range proofs and asset-type proofs).
    Not modelled here: asset tracing (RecordModel, TraceModel), signatures (KeyModel), owner
    memos, the mix proof (MixModel); they do not influence these checks. *)
From Coq Require Import List NArith ZArith Bool.
From Verif Require Import Base Field UtilsModel.
Import ListNotations.
Local Open Scope N_scope.
Local Open Scope res_scope.

(** The Ristretto group as used by Pedersen commitments
    (crypto/src/basic/pedersen_comm.rs 20-53): a vector space over its scalar
    field, two generators, and the compressed encoding with its partial inverse
    (algebra/src/ristretto.rs, CompressedRistretto).  [cp_eqb] is [==] on
    compressed points. *)
Record pgroup := mkPgroup {
  PF : Field;
  PG : Mod PF;
  gB : PG;  gBb : PG;
  CP : Type;
  compress : PG -> CP;
  decompress : CP -> option PG;
  decompress_compress : forall g, decompress (compress g) = Some g;
  cp_eqb : CP -> CP -> bool;
  cp_eqb_spec : forall a b, reflect (a = b) (cp_eqb a b);
}.

(** Opaque proof systems called by the verifier: Bulletproofs range proofs
    (crypto/src/bulletproofs/range.rs 36-66, `batch_verify_ranges` at 32 bits),
    the Chaum-Pedersen equality proof (chaum_pedersen.rs,
    `chaum_pedersen_batch_verify_multiple_eq`) and the mix proof
    (asset_mixer.rs, `batch_verify_asset_mixing`).  Each is an arbitrary decision
    function on a batch; the only fact kept is that an empty batch is accepted.
    Randomness of the batching is not modelled. *)
Record oracles (E : pgroup) := mkOracles {
  RP : Type; AP : Type; MP : Type;
  v_ranges : list (RP * list (CP E)) -> bool;
  v_assets : list (list (PG E) * AP) -> bool;
  v_mixes : list (list (CP E * CP E) * list (CP E * CP E) * MP) -> bool;
  v_ranges_nil : v_ranges [] = true;
  v_assets_nil : v_assets [] = true;
  v_mixes_nil : v_mixes [] = true;
}.

Section Model.
Context (E : pgroup) (O : oracles E).

(** An asset type is 32 bytes (structs.rs 30-35); only its equality and its
    scalar image are used.  [N] stands for the byte string.  The scalar image is
    a hash (structs.rs 44-66: SHA-256 truncated to 30 bytes), an arbitrary
    function here. *)
Definition asset_type := N.
Context (as_scalar : asset_type -> PF E).

(** structs.rs 116-122 [XfrAmount], 193-199 [XfrAssetType]. *)
Inductive xfr_amount := AConf (lo hi : CP E) | APlain (a : N).
Inductive xfr_asset_type := TConf (c : CP E) | TPlain (t : asset_type).

(** structs.rs 95-103 [BlindAssetRecord]; the public key is any number. *)
Record bar := mkBar { b_amount : xfr_amount; b_type : xfr_asset_type; b_pk : N }.

(** structs.rs 669-679 [XfrRangeProof], 645-657 [AssetTypeAndAmountProof]. *)
Record xrange_proof := mkXrp { xrp : RP E O; xrp_low : CP E; xrp_high : CP E }.
Inductive at_proof :=
| AssetMix (p : MP E O)
| ConfAmount (p : xrange_proof)
| ConfAsset (p : AP E O)
| ConfAll (p : xrange_proof) (q : AP E O)
| NoProof.

(** structs.rs 79-91 [XfrBody] without tracing proofs and memos. *)
Record xbody := mkXbody { x_in : list bar; x_out : list bar; x_proof : at_proof }.

(** structs.rs 149-154, 226-231. *)
Definition get_amount (a : xfr_amount) : res N :=
  match a with APlain x => Ok x | AConf _ _ => Err end.
Definition get_asset_type (t : xfr_asset_type) : res asset_type :=
  match t with TPlain x => Ok x | TConf _ => Err end.

(** i128 addition (the sums of xfr/mod.rs 437 and 782): overflow panics (checked build; a release build would wrap). *)
Definition i128_add (a b : Z) : res Z :=
  if ((- 2 ^ 127 <=? a + b) && (a + b <? 2 ^ 127))%Z then Ok (a + b)%Z else Panic.
Fixpoint i128_sum_from (acc : Z) (l : list Z) : res Z :=
  match l with
  | [] => Ok acc
  | x :: l' => do acc' <- i128_add acc x; i128_sum_from acc' l'
  end.
Definition i128_sum := i128_sum_from 0%Z.

(** The HashMap from asset type to the vector of signed amounts.  A map is its
    list of entries; the code only looks up, inserts and folds over all entries
    with a check that does not depend on the order. *)
Definition amap := list (asset_type * list Z).
Fixpoint push_amount (m : amap) (t : asset_type) (v : Z) : amap :=
  match m with
  | [] => [(t, [v])]
  | (t', vs) :: m' => if t' =? t then (t', vs ++ [v]) :: m' else (t', vs) :: push_amount m' t v
  end.

(** The final loop: mod.rs 436-441 and 782-787. *)
Fixpoint check_entries (m : amap) : res unit :=
  match m with
  | [] => Ok tt
  | (_, vs) :: m' => do s <- i128_sum vs;
                     if (s =? 0)%Z then check_entries m' else Err
  end.

(** mod.rs 726-788, [verify_plain_asset_mix]. *)
Fixpoint collect_plain (sign : Z) (m : amap) (l : list bar) : res amap :=
  match l with
  | [] => Ok m
  | r :: l' => do t <- get_asset_type (b_type r);
               do a <- get_amount (b_amount r);
               collect_plain sign (push_amount m t (sign * Z.of_N a)) l'
  end.
Definition verify_plain_asset_mix (ins outs : list bar) : res unit :=
  do m <- collect_plain 1 [] ins;
  do m' <- collect_plain (-1) m outs;
  check_entries m'.

(** mod.rs 679-701, [safe_sum_u64] and [verify_plain_amounts]: u128 sums; the
    sum of fewer than 2^64 u64 values cannot overflow, so the overflow panic is
    not modelled. *)
Definition safe_sum_u64 (l : list N) : N := fold_right N.add 0 l.
Definition verify_plain_amounts (ins outs : list bar) : res unit :=
  do a <- mapM (fun r => get_amount (b_amount r)) ins;
  do b <- mapM (fun r => get_amount (b_amount r)) outs;
  if safe_sum_u64 a =? safe_sum_u64 b then Ok tt else Err.

(** mod.rs 703-724, [verify_plain_asset]; [all_equal] of itertools. *)
Definition all_equal (l : list N) : bool :=
  match l with [] => true | x :: l' => forallb (N.eqb x) l' end.
Definition verify_plain_asset (ins outs : list bar) : res unit :=
  do l <- mapM (fun r => get_asset_type (b_type r)) (ins ++ outs);
  if all_equal l then Ok tt else Err.

(** pedersen_comm.rs 45-53, [commit]. *)
Definition commit (v r : PF E) : PG E := madd (smul v (gB E)) (smul r (gBb E)).

Definition opt {T} (o : option T) : res T := match o with Some x => Ok x | None => Err end.

(** proofs.rs 612-629 / 634-647: the pair of limb commitments of a record. *)
Definition limb_commitments (a : xfr_amount) : res (PG E * PG E) :=
  match a with
  | AConf lo hi => do l <- opt (decompress E lo); do h <- opt (decompress E hi); Ok (l, h)
  | APlain x => let '(lo, hi) := u64_to_u32_pair x in
                Ok (commit (fofN lo) f0, commit (fofN hi) f0)
  end.

Definition pow2_32 : PF E := fofN 4294967296.

(** proofs.rs 598-687, [extract_value_commitments]. *)
Definition pad_to (n : nat) (c : CP E) (l : list (CP E)) : list (CP E) :=
  l ++ repeat c (n - length l).
Definition extract_value_commitments (ins outs : list bar) (p : xrange_proof)
  : res (list (CP E)) :=
  let upper := min_greater_equal_power_of_two (2 * N.of_nat (length outs) + 2) in
  do ci <- mapM (fun r => limb_commitments (b_amount r)) ins;
  do co <- mapM (fun r => limb_commitments (b_amount r)) outs;
  let in_low := msum (map fst ci) in let in_high := msum (map snd ci) in
  let out_low := msum (map fst co) in let out_high := msum (map snd co) in
  let derived := madd (msub in_low out_low) (smul pow2_32 (msub in_high out_high)) in
  do plow <- opt (decompress E (xrp_low p));
  do phigh <- opt (decompress E (xrp_high p));
  let proved := madd plow (smul pow2_32 phigh) in
  if cp_eqb E (compress E derived) (compress E proved)
  then Ok (pad_to (N.to_nat upper) (compress E m0)
             (flat_map (fun c => [compress E (fst c); compress E (snd c)]) co
                ++ [xrp_low p; xrp_high p]))
  else Err.

(** proofs.rs 570-596, [batch_verify_confidential_amount]. *)
Definition batch_verify_confidential_amount (l : list (list bar * list bar * xrange_proof))
  : res unit :=
  do cs <- mapM (fun '(i, o, p) => extract_value_commitments i o p) l;
  if v_ranges E O (combine (map (fun '(_, _, p) => xrp p) l) cs) then Ok tt else Err.

(** proofs.rs 720-747, [batch_verify_confidential_asset]. *)
Definition type_commitment (t : xfr_asset_type) : res (PG E) :=
  match t with
  | TConf c => opt (decompress E c)
  | TPlain t => Ok (commit (as_scalar t) f0)
  end.
Definition batch_verify_confidential_asset (l : list (list bar * list bar * AP E O)) : res unit :=
  do cs <- mapM (fun '(i, o, p) =>
             rmap (fun c => (c, p)) (mapM (fun r => type_commitment (b_type r)) (i ++ o))) l;
  if v_assets E O cs then Ok tt else Err.

(** mod.rs 790-850, [batch_verify_asset_mix] and its [process_bars]. *)
Definition process_bar (r : bar) : res (CP E * CP E) :=
  do lh <- limb_commitments (b_amount r);
  Ok (compress E (madd (fst lh) (smul pow2_32 (snd lh))),
      match b_type r with
      | TConf c => c
      | TPlain t => compress E (commit (as_scalar t) f0)
      end).
Definition batch_verify_asset_mix (l : list (list bar * list bar * MP E O)) : res unit :=
  do cs <- mapM (fun '(i, o, p) =>
             do ci <- mapM process_bar i; do co <- mapM process_bar o; Ok (ci, co, p)) l;
  if v_mixes E O cs then Ok tt else Err.

(** mod.rs 500-551, [batch_verify_xfr_body_asset_records]: the loop with its
    three work lists, then the three batch checks. *)
Fixpoint sort_bodies (bs : list xbody)
    (ca : list (list bar * list bar * xrange_proof))
    (ct : list (list bar * list bar * AP E O))
    (cm : list (list bar * list bar * MP E O)) :=
  match bs with
  | [] => Ok (ca, ct, cm)
  | b :: bs' =>
      match x_proof b with
      | ConfAll p q => sort_bodies bs' (ca ++ [(x_in b, x_out b, p)]) (ct ++ [(x_in b, x_out b, q)]) cm
      | ConfAmount p =>
          do _ <- verify_plain_asset (x_in b) (x_out b);
          sort_bodies bs' (ca ++ [(x_in b, x_out b, p)]) ct cm
      | ConfAsset q =>
          do _ <- verify_plain_amounts (x_in b) (x_out b);
          sort_bodies bs' ca (ct ++ [(x_in b, x_out b, q)]) cm
      | NoProof =>
          do _ <- verify_plain_asset_mix (x_in b) (x_out b);
          sort_bodies bs' ca ct cm
      | AssetMix p => sort_bodies bs' ca ct (cm ++ [(x_in b, x_out b, p)])
      end
  end.
Definition verify_bodies (bs : list xbody) : res unit :=
  do w <- sort_bodies bs [] [] [];
  let '(ca, ct, cm) := w in
  do _ <- batch_verify_confidential_amount ca;
  do _ <- batch_verify_confidential_asset ct;
  batch_verify_asset_mix cm.

(** ** Generation *)

(** structs.rs 578-592 [OpenAssetRecord]. *)
Record oar := mkOar {
  o_bar : bar; o_amount : N; o_blind_lo : PF E; o_blind_hi : PF E;
  o_type : asset_type; o_type_blind : PF E
}.

(** mod.rs 42-57 [XfrType]. *)
Inductive xfr_type :=
| NonConfidential_SingleAsset
| ConfAmount_SingleAsset
| ConfAsset_SingleAsset
| Confidential_SingleAsset
| Confidential_MultiAsset
| NonConfidential_MultiAsset.

Definition amount_conf (r : bar) : bool := match b_amount r with AConf _ _ => true | _ => false end.
Definition type_conf (r : bar) : bool := match b_type r with TConf _ => true | _ => false end.

(** mod.rs 61-111, [XfrType::from_inputs_outputs]; the first input is indexed
    without a check. *)
Record kflags := mkKf { k_multi : bool; k_amt : bool; k_ty : bool; k_all : bool }.
Definition kstep (t0 : asset_type) (k : kflags) (r : oar) : kflags :=
  let multi := if t0 =? o_type r then k_multi k else true in
  let ca := amount_conf (o_bar r) in let ct := type_conf (o_bar r) in
  if ca && ct then mkKf multi (k_amt k) (k_ty k) true
  else if ca then mkKf multi true (k_ty k) (k_all k)
  else if ct then mkKf multi (k_amt k) true (k_all k)
  else mkKf multi (k_amt k) (k_ty k) (k_all k).
Definition kind_of (ins outs : list oar) : res xfr_type :=
  match ins with
  | [] => Panic
  | i0 :: _ =>
      let k := fold_left (kstep (o_type i0)) (ins ++ outs) (mkKf false false false false) in
      Ok (if k_multi k then
            if k_all k || k_amt k || k_ty k then Confidential_MultiAsset
            else NonConfidential_MultiAsset
          else if k_all k || (k_amt k && k_ty k) then Confidential_SingleAsset
          else if k_amt k then ConfAmount_SingleAsset
          else if k_ty k then ConfAsset_SingleAsset
          else NonConfidential_SingleAsset)
  end.

(** mod.rs 405-444, [check_asset_amount] on opened records. *)
Definition collect_open (sign : Z) (m : amap) (l : list oar) : amap :=
  fold_left (fun m r => push_amount m (o_type r) (sign * Z.of_N (o_amount r))) l m.
Definition check_asset_amount (ins outs : list oar) : res unit :=
  check_entries (collect_open (-1) (collect_open 1 [] ins) outs).

(** u64 addition: overflow panics (checked build; a release build wraps). *)
Definition u64_add (a b : N) : res N :=
  if a + b <? 18446744073709551616 then Ok (a + b) else Panic.
Fixpoint u64_sum_from (acc : N) (l : list N) : res N :=
  match l with
  | [] => Ok acc
  | x :: l' => do acc' <- u64_add acc x; u64_sum_from acc' l'
  end.

(** proofs.rs 494-568, [gen_range_proof] and [add_blindings]: the values and
    blindings handed to the range prover ([prove_ranges], range.rs 12-33, which
    returns the proof and the commitments to the values). *)
Definition halves (x : N) : list N := let '(lo, hi) := u64_to_u32_pair x in [lo; hi].
Definition gen_range_values (ins outs : list oar) : res (list (N * PF E)) :=
  let n := length outs in
  let upper := min_greater_equal_power_of_two (2 * (N.of_nat n + 1)) in
  if 128 <? upper then Err
  else
    do in_total <- u64_sum_from 0 (map o_amount ins);
    do out_total <- u64_sum_from 0 (map o_amount outs);
    if out_total <=? in_total then
      let values := flat_map (fun r => halves (o_amount r)) outs ++ halves (in_total - out_total) in
      let blinds := flat_map (fun r => [o_blind_lo r; o_blind_hi r]) outs ++
         [fsub (fsum (map o_blind_lo ins)) (fsum (map o_blind_lo outs));
          fsub (fsum (map o_blind_hi ins)) (fsum (map o_blind_hi outs))] in
      let pad := (N.to_nat upper - length values)%nat in
      Ok (combine (values ++ repeat 0 pad) (blinds ++ repeat f0 pad))
    else Err.
Definition value_commitments (vs : list (N * PF E)) : list (CP E) :=
  map (fun vr => compress E (commit (fofN (fst vr)) (snd vr))) vs.
Definition gen_range_proof (prove : list (N * PF E) -> RP E O) (ins outs : list oar)
  : res xrange_proof :=
  do vs <- gen_range_values ins outs;
  let cs := value_commitments vs in
  let n := length outs in
  match nth_error cs (2 * n), nth_error cs (2 * n + 1) with
  | Some lo, Some hi => Ok (mkXrp (prove vs) lo hi)
  | _, _ => Panic
  end.

(** proofs.rs 689-718, [asset_proof]: the commitments and blindings handed to
    the Chaum-Pedersen prover. *)
Definition asset_proof (prove : PF E -> list (PG E) -> list (PF E) -> AP E O) (ins outs : list oar)
  : res (AP E O) :=
  do cs <- mapM (fun r => match b_type (o_bar r) with
                          | TConf c => opt (decompress E c)
                          | TPlain t => Ok (commit (as_scalar t) (o_type_blind r))
                          end) (ins ++ outs);
  match ins with
  | [] => Panic
  | i0 :: _ => Ok (prove (as_scalar (o_type i0)) cs (map o_type_blind (ins ++ outs)))
  end.

(** mod.rs 243-325, [gen_xfr_body] (with 340-402, the two proof generators):
    the amount/type part.  [prove_mix] stands for prove_asset_mixing. *)
Definition oar_mix_view (r : oar) : N * PF E * PF E * PF E :=
  (o_amount r, as_scalar (o_type r),
   fadd (o_blind_lo r) (fmul pow2_32 (o_blind_hi r)), o_type_blind r).
Definition gen_xfr_body (prove_r : list (N * PF E) -> RP E O)
    (prove_a : PF E -> list (PG E) -> list (PF E) -> AP E O)
    (prove_m : list (N * PF E * PF E * PF E) -> list (N * PF E * PF E * PF E) -> res (MP E O))
    (ins outs : list oar) : res xbody :=
  match ins with
  | [] => Err
  | _ =>
    do k <- kind_of ins outs;
    do _ <- check_asset_amount ins outs;
    do p <- match k with
            | Confidential_MultiAsset =>
                rmap AssetMix (prove_m (map oar_mix_view ins) (map oar_mix_view outs))
            | NonConfidential_MultiAsset => Ok NoProof
            | NonConfidential_SingleAsset => Ok NoProof
            | ConfAmount_SingleAsset => rmap ConfAmount (gen_range_proof prove_r ins outs)
            | ConfAsset_SingleAsset => rmap ConfAsset (asset_proof prove_a ins outs)
            | Confidential_SingleAsset =>
                do r <- gen_range_proof prove_r ins outs;
                do a <- asset_proof prove_a ins outs;
                Ok (ConfAll r a)
            end;
    Ok (mkXbody (map o_bar ins) (map o_bar outs) p)
  end.

(** ** Record flags *)

(** asset_record.rs 15-28 [AssetRecordType], 30-41 [get_flags], 68-77
    [from_flags]; structs.rs 105-112 [get_record_type]. *)
Inductive record_type := RT_NonConfAmt_ConfType | RT_ConfAmt_NonConfType
                       | RT_ConfAmt_ConfType | RT_NonConfAmt_NonConfType.
Definition get_flags (t : record_type) : bool * bool :=
  match t with
  | RT_NonConfAmt_NonConfType => (false, false)
  | RT_ConfAmt_NonConfType => (true, false)
  | RT_NonConfAmt_ConfType => (false, true)
  | RT_ConfAmt_ConfType => (true, true)
  end.
Definition from_flags (conf_amt conf_type : bool) : record_type :=
  match conf_amt, conf_type with
  | false, false => RT_NonConfAmt_NonConfType
  | true, false => RT_ConfAmt_NonConfType
  | false, true => RT_NonConfAmt_ConfType
  | true, true => RT_ConfAmt_ConfType
  end.
Definition get_record_type (r : bar) : record_type := from_flags (amount_conf r) (type_conf r).
End Model.

Arguments mkBar {E} _ _ _.
Arguments AConf {E} _ _. Arguments APlain {E} _. Arguments TConf {E} _. Arguments TPlain {E} _.
Arguments b_amount {E} _. Arguments b_type {E} _. Arguments b_pk {E} _.
