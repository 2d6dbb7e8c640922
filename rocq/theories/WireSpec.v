(** Where the circuits of the anonymous notes keep the records they speak about (C56, C58,
    C64).  The positions depend on the numbers of records and the depths of their paths
    only, so the records can be read off any assignment. *)
From Coq Require Import List ZArith NArith Bool.
From Verif Require Import Base Field PField Power TurboModel TurboSpec TurboEmit UtilsModel XfrModel AxfrModel AxfrSpec NoteModel HistSpec HistNoteSpec.
Import ListNotations.
Local Open Scope F_scope.

Section Wires.
Context {F : PField} (w : nat -> F).
(** Three limbs of a public key, two of a secret key. *)
Definition key_at (b : nat) : F * F * F := (w b, w (b + 1)%nat, w (b + 2)%nat).
Definition secret_at (b : nat) : F * F := (w b, w (b + 1)%nat).
(** A step of a path: two siblings, and two flags for being the left or right child. *)
Definition step_at (b : nat) : step F :=
  ((if f_dec (w (b + 2)%nat) 0 then if f_dec (w (b + 3)%nat) 0 then SMiddle else SRight else SLeft), w b, w (b + 1)%nat).
(** A spent record whose path has [d] steps: number, amount, blinding, the steps, one more
    value for each step, and the type. *)
Definition spend_at (b d : nat) : spend F :=
  mkSpend (w b) (w (b + 1)%nat) (w (b + 3 + 5 * d)%nat) (w (b + 2)%nat) (map (fun i => step_at (b + 3 + 4 * i)) (seq 0 d)).
Definition spend_width (d : nat) : nat := (4 + 5 * d)%nat.
(** A created record: amount, blinding, type, owner. *)
Definition output_at (b : nat) : output F := mkOutput (w b) (w (b + 2)%nat) (w (b + 1)%nat) (key_at (b + 3)).
(** Records one after the other. *)
Fixpoint spends_at (b : nat) (ds : list nat) : list (spend F) :=
  match ds with [] => [] | d :: ds' => spend_at b d :: spends_at (b + spend_width d) ds' end.
Definition outputs_at (b n : nat) : list (output F) := map (fun i => output_at (b + 6 * i)) (seq 0 n).
End Wires.
Definition spends_width (ds : list nat) : nat := list_sum (map spend_width ds).

(** Where a transfer keeps its outputs, the owner's public key and secret key. *)
Definition outputs_base (ds : list nat) : nat := (2 + spends_width ds)%nat.
Definition owner_base (ds : list nat) (n : nat) : nat := (outputs_base ds + 6 * n)%nat.

(** [ext] finds, for every accepted proof, an assignment that satisfies the circuit, has
    the constants in variables 0 and 1 and the public inputs of the verifier. *)
Definition knows {F : PField} {Pf} (c : tcs F) (accept : list F -> Pf -> res unit) (ext : list F -> Pf -> nat -> F) : Prop :=
  forall pi pf, accept pi pf = Ok tt -> let w := ext pi pf in sat c w /\ w 0%nat = 0 /\ w 1%nat = 1 /\ pub_values w c = pi.

(** ** The history behind a ledger of notes, for proof systems with extractors *)
Section Ledger.
Context (F : PField) (E : pgroup) (as_scalar : N -> F) {D Fi Pf Sig Memo : Type} (fold_verify : D -> Fi -> res (list F)).
(** Extractors for shielding, for unshielding, and for transfers by numbers of records. *)
Context (es eu : list F -> Pf -> nat -> F) (ex : nat -> nat -> list F -> Pf -> nat -> F).
Notation note := (note F E (D:=D) (Fi:=Fi) (Pf:=Pf) (Sig:=Sig) (Memo:=Memo)).
(** The public inputs the verifier computes for the folding part of a note. *)
Definition fold_inputs (h : D) (fi : Fi) : list F := match fold_verify h fi with Ok l => l | _ => [] end.
(** The assignment found in a note: the extractor is run on the public inputs the verifier
    prepares and on the proof of the note. *)
Definition assignment (x : note) : nat -> F :=
  match x with
  | NShield _ _ n => es [fofN (fst (plain E (sb_in F E (sn_body F E n)))); as_scalar (snd (plain E (sb_in F E (sn_body F E n)))); sb_out F E (sn_body F E n)] (sb_proof F E (sn_body F E n))
  | NTransfer _ _ n root h => ex (length (b_inputs F (an_body F n))) (length (b_outputs F (an_body F n)))
      (b_inputs F (an_body F n) ++ [root] ++ b_outputs F (an_body F n) ++ [fofN (b_fee F (an_body F n))] ++ fold_inputs h (an_fold F n)) (an_proof F n)
  | NUnshield _ _ n root h => eu ([ub_in F E (un_body F E n); root; fofN (fst (plain E (ub_out F E (un_body F E n)))); as_scalar (snd (plain E (ub_out F E (un_body F E n))))]
      ++ fold_inputs h (un_fold F E n)) (un_proof F E n)
  end.
(** The event a note stands for, read off that assignment (trees of depth 20). *)
Definition event_in (x : note) : event F :=
  let w := assignment x in
  match x with
  | NShield _ _ n => EShield (mkOutput (w 2%nat) (w 3%nat) (w 4%nat) (key_at w 5))
  | NTransfer _ _ n root _ =>
      let ds := repeat 20%nat (length (b_inputs F (an_body F n))) in let m := length (b_outputs F (an_body F n)) in
      ETransfer (key_at w (owner_base ds m)) (secret_at w (owner_base ds m + 3)) root (spends_at w 2 ds) (outputs_at w (outputs_base ds) m) (fofN (b_fee F (an_body F n)))
  | NUnshield _ _ n root _ => EUnshield (key_at w (outputs_base [20%nat])) (secret_at w (outputs_base [20%nat] + 3)) root (spend_at w 2 20)
  end.
End Ledger.
