(** A ledger of accepted notes, in terms of what the notes publish (C70). *)
From Coq Require Import List ZArith NArith Bool.
From Verif Require Import Base Field PField Power UtilsModel XfrModel AxfrModel AxfrSpec NoteModel HistSpec.
Import ListNotations.
Local Open Scope F_scope.

Section Ledger.
Context (F : PField) (E : pgroup) (as_scalar : N -> F) {D Fi Pf Vp Sig Memo : Type}
  (fold_verify : D -> Fi -> res (list F)) (plonk : Vp -> list F -> Pf -> res unit) (sig_verify : N -> list N -> Sig -> res unit)
  (ser : shield_body F E (Pf:=Pf) (Memo:=Memo) -> res (list N)) (H : F -> F -> F -> F -> F) (ft : F).
(** The verifier parameters: for shielding, for unshielding, and for transfers by number
    of inputs and outputs (setup.rs offers a bounded choice). *)
Context (ps pu : Vp) (px : nat -> nat -> option Vp).

Inductive note :=
| NShield (n : shield_note F E (Pf:=Pf) (Sig:=Sig) (Memo:=Memo))
| NTransfer (n : axfr_note F (Fi:=Fi) (Pf:=Pf)) (root : F) (h : D)
| NUnshield (n : unshield_note F E (Fi:=Fi) (Pf:=Pf) (Memo:=Memo)) (root : F) (h : D).

(** The verifier of the library accepts the note for that root. *)
Definition accepted (x : note) : Prop :=
  match x with
  | NShield n => verify_shield F E as_scalar plonk sig_verify ser ps n = Ok tt
  | NTransfer n root h => exists p, px (length (b_inputs F (an_body F n))) (length (b_outputs F (an_body F n))) = Some p /\
      verify_axfr F fold_verify plonk p n root h = Ok tt
  | NUnshield n root h => verify_unshield F E as_scalar fold_verify plonk pu n root h = Ok tt
  end.
(** What a note publishes: commitments, nullifiers, and the root it refers to. *)
Definition coms_of (x : note) : list F :=
  match x with
  | NShield n => [sb_out F E (sn_body F E n)] | NTransfer n _ _ => b_outputs F (an_body F n) | NUnshield _ _ _ => []
  end.
Definition nulls_of (x : note) : list F :=
  match x with
  | NShield _ => [] | NTransfer n _ _ => b_inputs F (an_body F n) | NUnshield n _ _ => [ub_in F E (un_body F E n)]
  end.
Definition root_of_note (x : note) : option F :=
  match x with NShield _ => None | NTransfer _ r _ => Some r | NUnshield _ r _ => Some r end.
(** The transparent amount and type of a record (0 of type 0 if hidden). *)
Definition plain (r : bar E) : N * N :=
  match b_amount r, b_type r with APlain a, TPlain t => (a, t) | _, _ => (0, 0)%N end.
(** The amounts are those of machine words. *)
Definition word_sized (x : note) : Prop :=
  match x with
  | NShield n => (fst (plain (sb_in F E (sn_body F E n))) < 2 ^ 64)%N
  | NTransfer n _ _ => (b_fee F (an_body F n) < 2 ^ 64)%N
  | NUnshield n _ _ => (fst (plain (ub_out F E (un_body F E n))) < 2 ^ 64)%N
  end.
(** What the ledger checks: roots are roots of the tree of the commitments published
    before, nullifiers are published once. *)
Definition ledger_ok (l : list note) : Prop :=
  (forall l1 x l2 r, l = l1 ++ x :: l2 -> root_of_note x = Some r -> exists k, r = ledger_root F H (firstn k (flat_map coms_of l1))) /\
  NoDup (flat_map nulls_of l).

(** Transparent totals: what entered, what left, and the fees, for asset types of code [t]. *)
Definition of_type (t : F) (at_ : N * N) : Z := if f_dec t (as_scalar (snd at_)) then Z.of_N (fst at_) else 0%Z.
Definition paid_in (t : F) (l : list note) : Z :=
  zsum (map (fun x => match x with NShield n => of_type t (plain (sb_in F E (sn_body F E n))) | _ => 0%Z end) l).
Definition paid_out (t : F) (l : list note) : Z :=
  zsum (map (fun x => match x with NUnshield n _ _ => of_type t (plain (ub_out F E (un_body F E n))) | _ => 0%Z end) l).
Definition paid_fees (t : F) (l : list note) : Z :=
  zsum (map (fun x => match x with NTransfer n _ _ => if f_dec t ft then Z.of_N (b_fee F (an_body F n)) else 0%Z | _ => 0%Z end) l).

(** The event a note stands for agrees with everything the note publishes. *)
Definition shows (x : note) (e : event F) : Prop :=
  map (output_com F H) (makes e) = coms_of x /\ map (published F H) (takes e) = nulls_of x /\
  (forall pk sk r s, In (pk, sk, r, s) (takes e) -> root_of_note x = Some r) /\
  match x, e with
  | NShield n, EShield o => ou_amount o = fofN (fst (plain (sb_in F E (sn_body F E n)))) /\ ou_type o = as_scalar (snd (plain (sb_in F E (sn_body F E n))))
  | NTransfer n _ _, ETransfer _ _ _ _ _ fee => fee = fofN (b_fee F (an_body F n))
  | NUnshield n _ _, EUnshield _ _ _ s => sp_amount s = fofN (fst (plain (ub_out F E (un_body F E n)))) /\ sp_type s = as_scalar (snd (plain (ub_out F E (un_body F E n))))
  | _, _ => False
  end.
End Ledger.
