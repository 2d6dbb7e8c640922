(** Histories of transparent and confidential transfers: who holds which record, and what the
    records are worth.  Uses the transfer bodies and the batch verifier of XfrModel (api/src/xfr,
    mod.rs 500-551); the ledger that consumes and creates the records is not part of the library
    and is described here. *)
From Coq Require Import List NArith ZArith Bool Permutation.
From Verif Require Import Base Field UtilsModel XfrModel XfrSpec.
Import ListNotations.
Local Open Scope Z_scope.

(** How much of the type [t] a list of (amount, type) pairs holds. *)
Definition held {F : Field} (t : F) (l : list (Z * F)) : Z :=
  zsum (map (fun r => if f_dec (snd r) t then fst r else 0) l).

(** What a mix of [ins] into [outs] is to establish: from 64-bit amounts it makes 64-bit amounts,
    and no more of any type.  (Only for two or more outputs, and no more than inputs: otherwise
    the mix does not establish it, see C18.) *)
Definition never_increases {F : Field} (ins outs : list (Z * F)) : Prop :=
  (2 <= length outs <= length ins)%nat -> Forall (fun r => 0 <= fst r < 2 ^ 64) ins ->
  Forall (fun r => 0 <= fst r < 2 ^ 64) outs /\ forall t, held t outs <= held t ins.

(** Two or more outputs, and no more than inputs; or any numbers. *)
Definition no_more_outputs (i o : nat) : Prop := (2 <= o <= i)%nat.
Definition any_numbers (i o : nat) : Prop := True.

Section Spec.
Context (E : pgroup) (O : oracles E) (sc : N -> PF E).

(** A record together with an opening of its amount, as a whole, and one of its asset type. *)
Record known := mkKnown { k_bar : bar E; k_amount : Z * PF E; k_type : PF E * PF E }.
Definition opens_whole (a : xfr_amount E) (o : Z * PF E) : Prop :=
  match a with
  | AConf lo hi => exists l h, decompress E lo = Some l /\ decompress E hi = Some h /\
      madd l (smul (fofZ (2 ^ 32)) h) = pedersen E (fst o) (snd o)
  | APlain x => o = (Z.of_N x, f0)
  end.
(** The openings are openings of that very record. *)
Definition is_opened (k : known) : Prop :=
  opens_whole (b_amount (k_bar k)) (k_amount k) /\ opens_type sc (b_type (k_bar k)) (k_type k).
(** Transparent amounts are 64-bit numbers (they have that type in the code). *)
Definition is_typed (r : bar E) : Prop := forall a, b_amount r = APlain a -> is_u64 a.
Definition below (q : Z) (k : known) : Prop := 0 <= fst (k_amount k) < q.

(** How much of the asset type [t] a list of opened records is worth. *)
Definition view (k : known) : Z * PF E := (fst (k_amount k), fst (k_type k)).
Definition worth (t : PF E) (l : list known) : Z := held t (map view l).

(** A transfer as the ledger applied it: the body, and the records it consumed and created. *)
Record applied := mkApplied { t_body : xbody E O; t_in : list known; t_out : list known }.

(** A history of a ledger.  Records are issued with 64-bit amounts.  A transfer consumes unspent
    records, in whatever order, and creates records; its body was accepted, alone or in a batch.
    The numbers of inputs and outputs of a confidential multi-asset mix satisfy [counts].  Nothing
    is asked of the amounts of the created records, except that they are given below [q]. *)
Inductive history (counts : nat -> nat -> Prop) (q : Z) : list known -> list applied -> list known -> Prop :=
| h_start : history counts q [] [] []
| h_issue issued ts unspent k :
    history counts q issued ts unspent ->
    is_opened k -> is_typed (k_bar k) -> below (2 ^ 64) k ->
    history counts q (k :: issued) ts (k :: unspent)
| h_transfer issued ts unspent rest batch b kin kout :
    history counts q issued ts unspent ->
    Permutation unspent (kin ++ rest) ->
    verify_bodies E O sc batch = Ok tt -> In b batch ->
    (forall p, x_proof E O b = AssetMix E O p -> counts (length kin) (length kout)) ->
    x_in E O b = map k_bar kin -> x_out E O b = map k_bar kout ->
    Z.of_nat (length kin) < 2 ^ 60 -> Z.of_nat (length kout) < 2 ^ 60 ->
    Forall is_opened kout -> Forall (fun k => is_typed (k_bar k)) kout -> Forall (below q) kout ->
    history counts q issued (mkApplied b kin kout :: ts) (kout ++ rest).

(** What a knowledge extractor of the mix delivers for a batch: openings of the amount and type
    commitments of all records of a mix, between which the mix establishes what it is to. *)
Record wit := mkWit { w_amount : Z * PF E; w_type : PF E * PF E }.
Definition w_view (w : wit) : Z * PF E := (fst (w_amount w), fst (w_type w)).
Definition w_opens (q : Z) (c : CP E * CP E) (w : wit) : Prop :=
  decompress E (fst c) = Some (pedersen E (fst (w_amount w)) (snd (w_amount w))) /\
  decompress E (snd c) = Some (madd (smul (fst (w_type w)) (gB E)) (smul (snd (w_type w)) (gBb E))) /\
  0 <= fst (w_amount w) < q.
Definition mix_ext := MP E O -> list (CP E * CP E) -> list (CP E * CP E) -> list wit * list wit.
Definition mix_extractor (q : Z) (mext : mix_ext) : Prop :=
  forall batch, v_mixes E O batch = true ->
  forall ci co p, In (ci, co, p) batch ->
  Forall2 (w_opens q) ci (fst (mext p ci co)) /\ Forall2 (w_opens q) co (snd (mext p ci co)) /\
  never_increases (map w_view (fst (mext p ci co))) (map w_view (snd (mext p ci co))).

(** *** Openings read off the proofs of a transfer *)
Definition get {A} (d : A) (x : res A) : A := match x with Ok a => a | _ => d end.
Definition range_openings (ext : RP E O -> list (CP E) -> list (Z * PF E)) (b : xbody E O) (p : xrange_proof E O) :=
  ext (xrp E O p) (get [] (extract_value_commitments E O (x_in E O b) (x_out E O b) p)).
Definition type_openings (aext : AP E O -> list (PG E) -> PF E * list (PF E)) (b : xbody E O) (ap : AP E O) :=
  aext ap (get [] (mapM (fun r => type_commitment E sc (b_type r)) (x_in E O b ++ x_out E O b))).
Definition mix_openings (mext : mix_ext) (b : xbody E O) (p : MP E O) :=
  mext p (get [] (mapM (process_bar E sc) (x_in E O b))) (get [] (mapM (process_bar E sc) (x_out E O b))).

(** The limbs of the [i]-th created record: those of a number in the clear, else the ones at
    positions 2i and 2i+1 of the range proof. *)
Definition read_limbs (ex : list (Z * PF E)) (i : nat) (r : bar E) : opening E :=
  match b_amount r with
  | APlain x => mkOp (Z.of_N x mod 2 ^ 32) (Z.of_N x / 2 ^ 32) f0 f0
  | AConf _ _ => mkOp (fst (nth (2 * i) ex (0, f0))) (fst (nth (2 * i + 1) ex (0, f0)))
                      (snd (nth (2 * i) ex (0, f0))) (snd (nth (2 * i + 1) ex (0, f0)))
  end.
Definition all_limbs ex (outs : list (bar E)) : list (opening E) :=
  map (fun ir => read_limbs ex (fst ir) (snd ir)) (combine (seq 0 (length outs)) outs).
Definition whole (o : opening E) : Z * PF E := (op_value o, blind_value o).

(** *** The pairs of scalars that two openings of the same commitments give *)
Definition amount_diffs (xs ys : list (Z * PF E)) : list (PF E * PF E) :=
  map (fun '(x, y) => (fofZ (fst x - fst y), fsub (snd x) (snd y))) (combine xs ys).
Definition type_diffs (xs ys : list (PF E * PF E)) : list (PF E * PF E) :=
  map (fun '(x, y) => (fsub (fst x) (fst y), fsub (snd x) (snd y))) (combine xs ys).
Definition single (o : Z * PF E) : opening E := mkOp (fst o) 0 (snd o) f0.

(** The known openings of one transfer against those of its proofs. *)
Definition pairs_range ext (a : applied) (p : xrange_proof E O) : list (PF E * PF E) :=
  let ex := range_openings ext (t_body a) p in
  let limbs := all_limbs ex (x_out E O (t_body a)) in
  relation_candidates (map single (map k_amount (t_in a))) limbs ex
  ++ amount_diffs (map k_amount (t_out a)) (map whole limbs).
Definition pairs_type aext (a : applied) (ap : AP E O) : list (PF E * PF E) :=
  type_candidates (map k_type (t_in a) ++ map k_type (t_out a)) (type_openings aext (t_body a) ap).
Definition pairs_mix (mext : mix_ext) (a : applied) (p : MP E O) : list (PF E * PF E) :=
  let ws := fst (mix_openings mext (t_body a) p) ++ snd (mix_openings mext (t_body a) p) in
  amount_diffs (map k_amount (t_in a) ++ map k_amount (t_out a)) (map w_amount ws)
  ++ type_diffs (map k_type (t_in a) ++ map k_type (t_out a)) (map w_type ws).
Definition pairs ext aext mext (a : applied) : list (PF E * PF E) :=
  match x_proof E O (t_body a) with
  | ConfAmount _ _ p => pairs_range ext a p
  | ConfAsset _ _ ap => pairs_type aext a ap
  | ConfAll _ _ p ap => pairs_range ext a p ++ pairs_type aext a ap
  | AssetMix _ _ p => pairs_mix mext a p
  | NoProof _ _ => []
  end.

(** *** The created records with the openings read off *)
Definition read_amount ext mext (b : xbody E O) (i : nat) (r : bar E) : Z * PF E :=
  match b_amount r with
  | APlain x => (Z.of_N x, f0)
  | AConf _ _ =>
      match x_proof E O b with
      | ConfAmount _ _ p | ConfAll _ _ p _ => whole (read_limbs (range_openings ext b p) i r)
      | AssetMix _ _ p => w_amount (nth i (snd (mix_openings mext b p)) (mkWit (0, f0) (f0, f0)))
      | _ => (0, f0)
      end
  end.
Definition read_type aext mext (b : xbody E O) (i : nat) (r : bar E) : PF E * PF E :=
  match b_type r with
  | TPlain t => (sc t, f0)
  | TConf _ =>
      match x_proof E O b with
      | ConfAsset _ _ ap | ConfAll _ _ _ ap =>
          (fst (type_openings aext b ap), nth (length (x_in E O b) + i) (snd (type_openings aext b ap)) f0)
      | AssetMix _ _ p => w_type (nth i (snd (mix_openings mext b p)) (mkWit (0, f0) (f0, f0)))
      | _ => (f0, f0)
      end
  end.
Definition read_created ext aext mext (b : xbody E O) : list known :=
  map (fun ir => mkKnown (snd ir) (read_amount ext mext b (fst ir) (snd ir)) (read_type aext mext b (fst ir) (snd ir)))
      (combine (seq 0 (length (x_out E O b))) (x_out E O b)).
End Spec.
