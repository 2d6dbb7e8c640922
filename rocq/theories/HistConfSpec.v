(** A ledger that also converts between confidential and anonymous records (C71).  On top
    of the notes of HistNoteSpec it has the notes of bar_to_abar.rs and abar_to_bar.rs. *)
From Coq Require Import List ZArith NArith Bool.
From Verif Require Import Base Field PField UtilsModel Power RescueModel XfrModel XfrSpec AxfrModel AxfrSpec SimModel
  SigmaModel SigmaSpec NoteModel AxfrProps InspModel InspSpec InspNotes InspProps HistSpec HistNoteSpec.
Import ListNotations.
Local Open Scope F_scope.

Section Ledger.
Context (G : Mod RFr) (B H : G) {C : Type} (comp : G -> C) (decomp : C -> option G) (Hdc : forall g, decomp (comp g) = Some g)
  (ceqb : C -> C -> bool) (Hceqb : forall a b, reflect (a = b) (ceqb a b)) (as_num : N -> N) {D Fi Pf Vp Sig Memo : Type}.
Notation E := (rgroup RFr G B H comp decomp Hdc ceqb Hceqb).
Notation amount_com := (com_amount RFr G B H comp decomp Hdc ceqb Hceqb).
Notation type_com := (com_type RFr G B H comp decomp Hdc ceqb Hceqb as_num).
Notation proof := (ds_proof (F := RFr) (G := G)).
Context (fold_verify : D -> Fi -> res (list BLS)) (plonk : Vp -> list BLS -> Pf -> res unit) (sig_verify : N -> list N -> Sig -> res unit)
  (ser : shield_body BLS E (Pf:=Pf) (Memo:=Memo) -> res (list N)) (ft : BLS) (ps pu pf pt : Vp) (px : nat -> nat -> option Vp).
Notation note := (note BLS E (D:=D) (Fi:=Fi) (Pf:=Pf) (Sig:=Sig) (Memo:=Memo)).
(** The number a type stands for. *)
Definition code (t : N) : BLS := fofN (as_num t).

(** The verifiers of the two conversions. *)
Notation from_accepts chal vp := (from_conf_core BLS RFr G B H comp decomp Hdc ceqb Hceqb as_num (Pf := Pf) (Vp := Vp) (Memo := Memo) chal plonk vp).
Notation to_core chal := (to_conf_core BLS RFr G B H comp decomp Hdc ceqb Hceqb as_num (D := D) (Fi := Fi) (Pf := Pf) (Vp := Vp) (Memo := Memo) chal fold_verify plonk).
Notation to_accepts chal := (verify_to_conf BLS E (to_core chal)).

(** What rewinding the prover of one conversion gives: runs with one first message, under
    two first challenges and two second challenges for each; the responses are fixed
    before the second challenge. *)
Record runs := mkRuns {
  r_proof : bool -> proof; r_pf : bool -> bool -> Pf; r_fold : bool -> bool -> Fi;
  r_chal : bool -> bool -> oracle (F := RFr) (G := G); r_beta : bool -> RFr; r_lambda : bool -> bool -> RFr }.
(** An opening of a confidential record: amount, type, and the blindings of both. *)
Definition opening := (Z * Z * RFr * RFr)%type.

(** A note of HistNoteSpec; a confidential record [rec] converted to the commitment
    [out]; an anonymous record with nullifier [nf] converted to the confidential record
    [out].  For conversions, [k] is what anybody knows the confidential record to hold. *)
Inductive move :=
| MNote (x : note)
| MFrom (rec : bar E) (out : BLS) (memo : Memo) (r : runs) (k : opening)
| MTo (nf : BLS) (out : bar E) (root : BLS) (version : N) (memo : option Memo) (h : D) (r : runs) (k : opening).

Definition rewound (start : transcript (F := RFr) (G := G)) (rec : bar E) (r : runs) : Prop :=
  ds_comm (r_proof r true) = ds_comm (r_proof r false) /\ ds_rand (r_proof r true) = ds_rand (r_proof r false) /\
  r_beta r true <> r_beta r false /\ (forall i, r_lambda r i true <> r_lambda r i false) /\
  exists ca ct, amount_com rec = Ok ca /\ type_com rec = Ok ct /\
    forall i j, ds_verify B H (r_chal r i j) start [ca; ct] (r_proof r i) = Ok (r_beta r i, r_lambda r i j).
(** All runs are accepted by the verifiers of the library. *)
Definition move_accepted (m : move) : Prop :=
  match m with
  | MNote x => accepted BLS E code fold_verify plonk sig_verify ser ps pu px x
  | MFrom rec out memo r _ => rewound (from_start BLS RFr G out) rec r /\
      forall i j, from_accepts (r_chal r i j) pf (mkFb BLS E rec out (r_proof r i, r_pf r i j) memo) = Ok tt
  | MTo nf out root version memo h r _ => rewound (to_start BLS RFr G nf) out r /\
      forall i j, to_accepts (r_chal r i j) pt (mkCn BLS E (mkCb BLS E nf out (r_proof r i) root version memo) (r_pf r i j) (r_fold r i j)) root h = Ok tt
  end.
(** The opening is one of the record's commitments, to numbers of the right size. *)
Definition opened (rec : bar E) (k : opening) : Prop :=
  let '(x, y, u, v) := k in (0 <= x < 2 ^ 64)%Z /\ (0 <= y < 2 ^ 240)%Z /\
  exists ca ct, amount_com rec = Ok ca /\ type_com rec = Ok ct /\ opens B H ca (fofZ x) u /\ opens B H ct (fofZ y) v.
Definition sized (m : move) : Prop :=
  match m with MNote x => word_sized BLS E x | MFrom rec _ _ _ k => opened rec k | MTo _ out _ _ _ _ _ k => opened out k end.

(** What a move publishes, and the checks of the ledger, as in HistNoteSpec. *)
Definition move_coms (m : move) : list BLS :=
  match m with MNote x => coms_of BLS E x | MFrom _ out _ _ _ => [out] | MTo _ _ _ _ _ _ _ _ => [] end.
Definition move_nulls (m : move) : list BLS :=
  match m with MNote x => nulls_of BLS E x | MFrom _ _ _ _ _ => [] | MTo nf _ _ _ _ _ _ _ => [nf] end.
Definition move_root (m : move) : option BLS :=
  match m with MNote x => root_of_note BLS E x | MFrom _ _ _ _ _ => None | MTo _ _ root _ _ _ _ _ => Some root end.
Definition moves_ok (l : list move) : Prop :=
  (forall l1 x l2 r, l = l1 ++ x :: l2 -> move_root x = Some r -> exists k, r = ledger_root BLS Hash (firstn k (flat_map move_coms l1))) /\
  NoDup (flat_map move_nulls l).

(** What entered the anonymous pool and left it in type [t], transparently or as a
    confidential record. *)
Definition carries (t : BLS) (k : opening) : Z := let '(x, y, _, _) := k in if f_dec t (fofZ y) then x else 0%Z.
Definition moved_in (t : BLS) (l : list move) : Z :=
  zsum (map (fun m => match m with MNote x => paid_in BLS E code t [x] | MFrom _ _ _ _ k => carries t k | MTo _ _ _ _ _ _ _ _ => 0%Z end) l).
Definition moved_out (t : BLS) (l : list move) : Z :=
  zsum (map (fun m => match m with MNote x => paid_out BLS E code t [x] | MFrom _ _ _ _ _ => 0%Z | MTo _ _ _ _ _ _ _ k => carries t k end) l).
Definition moved_fees (t : BLS) (l : list move) : Z :=
  zsum (map (fun m => match m with MNote x => paid_fees BLS E ft t [x] | _ => 0%Z end) l).

(** What the proofs of a move contain: for a note an event, for a conversion the state of
    the inspection and the anonymous record, in each run. *)
Inductive finding :=
| FNote (e : event BLS)
| FFrom (f : bool -> bool -> state BLS * (BLS * BLS * BLS) * BLS)
| FTo (root : BLS) (f : bool -> bool -> state BLS * (BLS * BLS * BLS) * (BLS * BLS) * spend BLS).
Notation answered := (answers BLS RFr bls_rescue).
Definition answers_run (r : runs) (i j : bool) (o : state BLS) : Prop :=
  answered (fofN (ds_comm (r_proof r i))) (map fst (ds_resp (r_proof r i))) (r_beta r i) (r_lambda r i j) o.
Definition found_in (m : move) (f : finding) : Prop :=
  match m, f with
  | MNote x, FNote e => shows BLS E code Hash x e /\ sound_event BLS Hash ft e /\ forall pk sk r s, In (pk, sk, r, s) (takes e) -> length (sp_path s) = 20%nat
  | MFrom rec out memo r _, FFrom f => forall i j, let '(o, pk, b) := f i j in let '(x, y, _, _, _) := o in
      answers_run r i j o /\ out = commitment BLS Hash pk b (fofZ x) (fofZ y)
  | MTo nf out root _ _ _ r _, FTo root' f => root' = root /\ forall i j, let '(o, pk, sk, s) := f i j in let '(x, y, _, _, _) := o in
      answers_run r i j o /\ nf = nullifier BLS Hash pk sk s /\ in_tree BLS Hash pk root s /\ length (sp_path s) = 20%nat /\
      sp_amount s = fofZ x /\ sp_type s = fofZ y
  | _, _ => False
  end.
(** The event it stands for. *)
Definition event_of (f : finding) : event BLS :=
  match f with
  | FNote e => e
  | FFrom f => let '(o, pk, b) := f true true in let '(x, y, _, _, _) := o in EShield (mkOutput (fofZ x) (fofZ y) b pk)
  | FTo root f => let '(_, pk, sk, s) := f true true in EUnshield pk sk root s
  end.
(** The states found in two runs are different inputs with one hash. *)
Definition state_at (f : finding) (i j : bool) : option (state BLS) :=
  match f with FNote _ => None | FFrom f => let '(o, _, _) := f i j in Some o | FTo _ f => let '(o, _, _, _) := f i j in Some o end.
Definition states_collide (f : finding) : Prop :=
  exists i j o o', state_at f i j = Some o /\ state_at f true true = Some o' /\
    Exists (collide BLS Hash) (combine (opening_inputs o) (opening_inputs o')).
(** The responses of the runs and the known opening give a relation between the generators. *)
Definition relates (r : runs) (k : opening) : Prop :=
  let '(x, y, u, v) := k in let rv := reveals (r_beta r) (fun i => ds_resp (r_proof r i)) in
  related B H (fst (rv 0%nat) - fofZ x) (snd (rv 0%nat) - u) \/ related B H (fst (rv 1%nat) - fofZ y) (snd (rv 1%nat) - v).
Definition breaks_commitment (m : move) : Prop :=
  match m with MNote _ => False | MFrom _ _ _ r k => relates r k | MTo _ _ _ _ _ _ r k => relates r k end.
End Ledger.
