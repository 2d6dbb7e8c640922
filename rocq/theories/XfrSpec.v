(** Specification vocabulary for transfers: totals per asset type, openings of
    records, and what it means to know a discrete-logarithm relation.
    Independent of the verification functions. *)
From Coq Require Import List NArith ZArith Bool.
From Verif Require Import Base Field UtilsModel XfrModel.
Import ListNotations.
Local Open Scope Z_scope.

(** Total amount of asset type [t] in a list of (amount, type) pairs, over the
    unbounded integers. *)
Fixpoint total (t : N) (l : list (N * N)) : Z :=
  match l with
  | [] => 0
  | (a, t') :: l' => (if N.eqb t' t then Z.of_N a else 0) + total t l'
  end.

Definition conserved (ins outs : list (N * N)) : Prop :=
  forall t, total t ins = total t outs.

(** A fully transparent record. *)
Definition plain_bar {E} (a t pk : N) : bar E := mkBar (APlain a) (TPlain t) pk.
Definition transparent {E} (r : bar E) (at_ : N * N) : Prop :=
  b_amount r = APlain (fst at_) /\ b_type r = TPlain (snd at_).

Definition is_u64 (a : N) : Prop := (a < 2 ^ 64)%N.

(** An opening of a record's amount: the two 32-bit limbs and their blindings. *)
Record opening (E : pgroup) := mkOp { op_lo : Z; op_hi : Z; op_rlo : PF E; op_rhi : PF E }.
Arguments mkOp {E} _ _ _ _. Arguments op_lo {E} _. Arguments op_hi {E} _.
Arguments op_rlo {E} _. Arguments op_rhi {E} _.

Definition op_value {E} (o : opening E) : Z := op_lo o + 2 ^ 32 * op_hi o.
Definition limbs_in {E} (q : Z) (o : opening E) : Prop := 0 <= op_lo o < q /\ 0 <= op_hi o < q.

(** [o] opens the amount field [a]: the commitments are Pedersen commitments to
    the limbs; for a transparent amount the limbs are those of the number and
    the blindings are zero. *)
Definition pedersen (E : pgroup) (v : Z) (r : PF E) : PG E :=
  madd (smul (fofZ v) (gB E)) (smul r (gBb E)).
Definition opens {E} (a : xfr_amount E) (o : opening E) : Prop :=
  match a with
  | AConf lo hi => decompress E lo = Some (pedersen E (op_lo o) (op_rlo o)) /\
                   decompress E hi = Some (pedersen E (op_hi o) (op_rhi o))
  | APlain x => op_lo o = Z.of_N x mod 2 ^ 32 /\ op_hi o = Z.of_N x / 2 ^ 32 /\
                op_rlo o = f0 /\ op_rhi o = f0
  end.

(** What a range-proof knowledge extractor delivers for a batch: an opening of
    every commitment, with a 32-bit value. *)
Definition range_extractor (E : pgroup) (O : oracles E)
    (ext : RP E O -> list (CP E) -> list (Z * PF E)) : Prop :=
  forall batch, v_ranges E O batch = true ->
  forall rp cs, In (rp, cs) batch ->
  Forall2 (fun c vr => decompress E c = Some (pedersen E (fst vr) (snd vr)) /\ 0 <= fst vr < 2 ^ 32)
          cs (ext rp cs).

(** What the extractor of the asset-type proof delivers: one value committed to
    by all commitments of the instance. *)
Definition asset_extractor (E : pgroup) (O : oracles E)
    (ext : AP E O -> list (PG E) -> PF E * list (PF E)) : Prop :=
  forall batch, v_assets E O batch = true ->
  forall cs ap, In (cs, ap) batch ->
  Forall2 (fun c r => c = madd (smul (fst (ext ap cs)) (gB E)) (smul r (gBb E)))
          cs (snd (ext ap cs)).

(** A nontrivial relation between the two generators. *)
Definition dlog_relation (E : pgroup) (ab : PF E * PF E) : Prop :=
  fst ab <> f0 /\ madd (smul (fst ab) (gB E)) (smul (snd ab) (gBb E)) = m0.

(** The pairs read off from openings [ins], [outs] and extracted values [ex]
    (the limbs of the outputs, then the two limbs of the difference). *)
Definition flat_openings {E} (l : list (opening E)) : list (Z * PF E) :=
  flat_map (fun o => [(op_lo o, op_rlo o); (op_hi o, op_rhi o)]) l.
Definition zsum (l : list Z) : Z := fold_right Z.add 0 l.
Definition blind_value {E} (o : opening E) : PF E :=
  fadd (op_rlo o) (fmul (fofZ (2 ^ 32)) (op_rhi o)).
Definition relation_candidates {E} (ins outs : list (opening E)) (ex : list (Z * PF E))
  : list (PF E * PF E) :=
  let n := length outs in
  let dlo := nth (2 * n) ex (0, f0) in let dhi := nth (2 * n + 1) ex (0, f0) in
  (fofZ (zsum (map op_value ins) - zsum (map op_value outs) - (fst dlo + 2 ^ 32 * fst dhi)),
   fsub (fsub (fsum (map blind_value ins)) (fsum (map blind_value outs)))
        (fadd (snd dlo) (fmul (fofZ (2 ^ 32)) (snd dhi))))
  :: map (fun '(a, b) => (fofZ (fst a - fst b), fsub (snd a) (snd b)))
         (combine (flat_openings outs) ex).

(** An honestly opened record: the blind record carries exactly the opening. *)
Definition consistent (E : pgroup) (sc : N -> PF E) (r : oar E) : Prop :=
  is_u64 (o_amount E r) /\
  (b_amount (o_bar E r) = APlain (o_amount E r) /\ o_blind_lo E r = f0 /\ o_blind_hi E r = f0
   \/ b_amount (o_bar E r) =
        AConf (compress E (pedersen E (Z.of_N (o_amount E r) mod 2 ^ 32) (o_blind_lo E r)))
              (compress E (pedersen E (Z.of_N (o_amount E r) / 2 ^ 32) (o_blind_hi E r)))) /\
  (b_type (o_bar E r) = TPlain (o_type E r) /\ o_type_blind E r = f0
   \/ b_type (o_bar E r) =
        TConf (compress E (madd (smul (sc (o_type E r)) (gB E)) (smul (o_type_blind E r) (gBb E))))).
Definition open_view {E} (r : oar E) : N * N := (o_amount E r, o_type E r).

(** An opening (value, blinding) of a record's asset type. *)
Definition opens_type {E} (sc : N -> PF E) (t : xfr_asset_type E) (o : PF E * PF E) : Prop :=
  match t with
  | TConf c => decompress E c = Some (madd (smul (fst o) (gB E)) (smul (snd o) (gBb E)))
  | TPlain t => fst o = sc t /\ snd o = f0
  end.
Definition type_candidates {E : pgroup} (ops : list (PF E * PF E)) (ex : PF E * list (PF E))
  : list (PF E * PF E) :=
  map (fun '(o, r) => (fsub (fst o) (fst ex), fsub (snd o) r)) (combine ops (snd ex)).
Definition all_same {A} (l : list A) : Prop := forall x y, In x l -> In y l -> x = y.

(** Completeness of the proof systems: whatever the honest provers output for a
    true statement is accepted when batched alone. *)
Definition range_complete (E : pgroup) (O : oracles E) (prove : list (N * PF E) -> RP E O) : Prop :=
  forall vs, Forall (fun vr => (fst vr < 2 ^ 32)%N) vs -> In (length vs) [2; 4; 8; 16; 32; 64; 128]%nat ->
  v_ranges E O [(prove vs, map (fun vr => compress E (pedersen E (Z.of_N (fst vr)) (snd vr))) vs)] = true.
Definition asset_complete (E : pgroup) (O : oracles E)
    (prove : PF E -> list (PG E) -> list (PF E) -> AP E O) : Prop :=
  forall v rs, let cs := map (fun r => madd (smul v (gB E)) (smul r (gBb E))) rs in
  (2 <= length rs)%nat -> v_assets E O [(cs, prove v cs rs)] = true.

(** Which records hide what. *)
Definition hides_amount {E} (r : oar E) : Prop := exists lo hi, b_amount (o_bar E r) = AConf lo hi.
Definition hides_type {E} (r : oar E) : Prop := exists c, b_type (o_bar E r) = TConf c.

Definition some_hides_amount (E : pgroup) (l : list (oar E)) := exists r, In r l /\ hides_amount r.
Definition some_hides_type (E : pgroup) (l : list (oar E)) := exists r, In r l /\ hides_type r.
Definition several_types (E : pgroup) (l : list (oar E)) :=
  exists r s, In r l /\ In s l /\ o_type E r <> o_type E s.

(** Completeness of the mix prover on the openings it is given: amount, type
    scalar, amount blinding, type blinding. *)
Definition mix_commitments {E : pgroup} (l : list (N * PF E * PF E * PF E)) : list (CP E * CP E) :=
  map (fun '(a, t, ra, rt) => (compress E (pedersen E (Z.of_N a) ra),
                               compress E (madd (smul t (gB E)) (smul rt (gBb E))))) l.
Definition mix_complete (E : pgroup) (O : oracles E)
  (prove : list (N * PF E * PF E * PF E) -> list (N * PF E * PF E * PF E) -> res (MP E O)) : Prop :=
  forall ins outs p, prove ins outs = Ok p ->
  v_mixes E O [(mix_commitments ins, mix_commitments outs, p)] = true.
