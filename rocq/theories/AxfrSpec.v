(** What an anonymous transfer is, over a field and an arbitrary four-to-one
    hash, independently of circuits. *)
From Coq Require Import List ZArith NArith Bool.
From Verif Require Import Base Field PField MixSpec.
Import ListNotations.
Local Open Scope F_scope.

Section Spec.
Context (F : PField) (H : F -> F -> F -> F -> F).

(** Position of a node among the three children of its parent, with the two
    siblings in order. *)
Inductive side := SLeft | SMiddle | SRight.
Definition step := (side * F * F)%type.
Definition parent (x : F) (s : step) : F :=
  match s with
  | (SLeft, a, b) => H x a b 0
  | (SMiddle, a, b) => H a x b 0
  | (SRight, a, b) => H a b x 0
  end.
Definition root_of (uid com : F) (path : list step) : F := fold_left parent path (H uid com 0 0).

(** A spent and a created record. *)
Record spend := mkSpend { sp_uid : F; sp_amount : F; sp_type : F; sp_blind : F; sp_path : list step }.
Record output := mkOutput { ou_amount : F; ou_type : F; ou_blind : F; ou_pk : F * F * F }.

Definition commitment (pk : F * F * F) (blind amount ty : F) : F :=
  let '(p0, p1, p2) := pk in H (H blind amount ty p0) p1 p2 0.
Definition nullifier (pk : F * F * F) (sk : F * F) (s : spend) : F :=
  let '(p0, p1, p2) := pk in
  H (H (sp_uid s * fofZ (2 ^ 64) + sp_amount s) (sp_type s) p0 p1) p2 (fst sk) (snd sk).
Definition spend_com (pk : F * F * F) (s : spend) : F := commitment pk (sp_blind s) (sp_amount s) (sp_type s).
Definition output_com (o : output) : F := commitment (ou_pk o) (ou_blind o) (ou_amount o) (ou_type o).

Definition u64f (x : F) : Prop := (toZ x < 2 ^ 64)%Z.
Definition in_tree (pk : F * F * F) (root : F) (s : spend) : Prop :=
  root_of (sp_uid s) (spend_com pk s) (sp_path s) = root.
Definition spent (l : list spend) : list (F * F) := map (fun s => (sp_type s, sp_amount s)) l.
Definition created (l : list output) : list (F * F) := map (fun o => (ou_type o, ou_amount o)) l.

(** The transfer is well formed: every spent record is in the tree of that root,
    amounts are 64-bit, and every asset type is conserved over the integers, the
    fee leaving in type [ft]. *)
Definition well_formed (pk : F * F * F) (root : F) (ins : list spend) (outs : list output) : Prop :=
  Forall (fun s => in_tree pk root s /\ u64f (sp_amount s)) ins /\ Forall (fun o => u64f (ou_amount o)) outs.
Definition conserves (ft : F) (ins : list spend) (outs : list output) (fee : F) : Prop :=
  forall t, ftotal t (spent ins) = (ftotal t (created outs) + (if f_dec t ft then toZ fee else 0))%Z.
(** The public inputs of such a transfer, before the address-folding ones. *)
Definition public (pk : F * F * F) (sk : F * F) (root : F) (ins : list spend) (outs : list output) (fee : F) : list F :=
  map (nullifier pk sk) ins ++ [root] ++ map output_com outs ++ [fee].

(** A given pair of different inputs with the same hash. *)
Definition H4 (x : F * F * F * F) : F := let '(a, b, c, d) := x in H a b c d.
Definition collide (p : (F * F * F * F) * (F * F * F * F)) : Prop := fst p <> snd p /\ H4 (fst p) = H4 (snd p).
(** The hash inputs met when authenticating a leaf. *)
Definition step_input (x : F) (s : step) : F * F * F * F :=
  match s with
  | (SLeft, a, b) => (x, a, b, 0)
  | (SMiddle, a, b) => (a, x, b, 0)
  | (SRight, a, b) => (a, b, x, 0)
  end.
Fixpoint path_inputs (x : F * F * F * F) (path : list step) : list (F * F * F * F) :=
  match path with
  | [] => [x]
  | s :: path' => x :: path_inputs (step_input (H4 x) s) path'
  end.
Definition com_inputs (pk : F * F * F) (blind amount ty : F) : list (F * F * F * F) :=
  let '(p0, p1, p2) := pk in [(blind, amount, ty, p0); (H blind amount ty p0, p1, p2, 0)].
Definition spend_inputs (pk : F * F * F) (s : spend) : list (F * F * F * F) :=
  com_inputs pk (sp_blind s) (sp_amount s) (sp_type s) ++
  path_inputs (sp_uid s, spend_com pk s, 0, 0) (sp_path s).
End Spec.
Arguments mkSpend {F}. Arguments sp_uid {F}. Arguments sp_amount {F}. Arguments sp_type {F}.
Arguments sp_blind {F}. Arguments sp_path {F}. Arguments mkOutput {F}. Arguments ou_amount {F}.
Arguments ou_type {F}. Arguments ou_blind {F}. Arguments ou_pk {F}. Arguments u64f {F}.
