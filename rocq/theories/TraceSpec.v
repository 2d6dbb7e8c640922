(** What the theorems about tracing are stated with. *)
From Coq Require Import List NArith ZArith Bool.
From Verif Require Import Base Field UtilsModel XfrModel XfrSpec SigmaModel SigmaSpec NoteModel KeyModel HybModel KeySpec RecordModel RecordSpec TraceModel.
Import ListNotations.
Local Open Scope N_scope.

Section Spec.
Context (H : hsuite) (E : pgroup) (O : oracles E) (as_scalar : N -> PF E).
Context {BF : Field} {BG : Mod BF} (BB : BG) (IP IDP CM : Type).
Local Notation policy := (policy E (BG := BG) IP).
Local Notation tmemo := (tmemo E (BG := BG)).
Local Notation arecord := (arecord E (BG := BG) IP IDP).
Local Notation tbody := (tbody E O (BG := BG) IDP).
Local Notation npol := (npol E (BG := BG) IP CM).

(** ** Honest records *)
(** A record with the attribute ciphertexts [h_attrs] made for each of its policies
    and the random bytes [h_es] of its memos. *)
Record hrec := mkHr { h_rec : arecord; h_es : nat -> bytes; h_attrs : list (list (N * (BG * BG))) }.
Definition h_bar (x : hrec) : bar E := o_bar E (ar_open E IP IDP (h_rec x)).
Definition h_policies (x : hrec) : list policy := ar_policies E IP IDP (h_rec x).
(** The memos are those made by the library from the opening of the record. *)
Definition honest_memos (x : hrec) : Prop :=
  let o := ar_open E IP IDP (h_rec x) in
  length (h_attrs x) = length (h_policies x) /\
  ar_memos E IP IDP (h_rec x) =
    tracer_memos H E as_scalar IP (h_es x) (h_policies x) (h_attrs x) (amount_conf E (o_bar E o)) (type_conf E (o_bar E o))
      (o_amount E o) (o_type E o) (o_blind_lo E o, o_blind_hi E o) (o_type_blind E o).
Definition honest_record (x : hrec) : Prop := consistent E as_scalar (ar_open E IP IDP (h_rec x)) /\ honest_memos x.
(** The attributes are 32-bit numbers, and each ciphertext encrypts its attribute for
    the key of its policy. *)
Definition honest_attrs (x : hrec) : Prop :=
  Forall2 (fun p al => Forall (fun a => fst a < 2 ^ 32 /\ exists r, encrypts BB (ek_attr E (p_keys E IP p)) (snd a) (fofN (fst a)) r) al)
    (h_policies x) (h_attrs x).
(** Draws for the memos. *)
Definition honest_draws (x : hrec) : Prop := is_type (o_type E (ar_open E IP IDP (h_rec x))) /\ forall n, bytes32 (h_es x n).

(** What the tracer with the key [k] should get from a record: one entry for each
    policy with this key. *)
Definition traced (k : enc_keys E (BG := BG)) (x : hrec) : list (N * N * list N * N) :=
  let o := ar_open E IP IDP (h_rec x) in
  flat_map (fun pa => if ek_eqb E (p_keys E IP (fst pa)) k then [(o_amount E o, o_type E o, map fst (snd pa), b_pk (o_bar E o))] else [])
    (combine (h_policies x) (h_attrs x)).

(** The transfer [b] has the records [ins], [outs] and their memos. *)
Definition carries (b : tbody) (ins outs : list hrec) : Prop :=
  x_in E O (tb_body E O IDP b) = map h_bar ins /\ x_out E O (tb_body E O IDP b) = map h_bar outs /\
  tb_memos E O IDP b = map (fun x => ar_memos E IP IDP (h_rec x)) (ins ++ outs).

(** ** What the verifier reads of the memos *)
Definition slot_same (b : bar E) (p : policy) (m m' : tmemo) : Prop :=
  (p_ident E IP p <> None -> tm_attrs E m = tm_attrs E m') /\
  (get_record_type E b <> RT_NonConfAmt_NonConfType -> p_asset E IP p = true -> tm_amount E m = tm_amount E m' /\ tm_type E m = tm_type E m').
Definition record_same (p : list policy) (b : bar E) (m m' : list tmemo) : Prop :=
  length m = length m' /\
  forall j q x y, nth_error p j = Some q -> nth_error m j = Some x -> nth_error m' j = Some y -> slot_same b q x y.
Definition side_same (ps : list (list policy)) (bs : list (bar E)) (ms ms' : list (list tmemo)) : Prop :=
  length ps = length bs /\ length bs = length ms /\ length ms = length ms' /\
  forall i p b m m', nth_error ps i = Some p -> nth_error bs i = Some b -> nth_error ms i = Some m -> nth_error ms' i = Some m' -> record_same p b m m'.
(** Two transfers with the same records and proofs. *)
Definition same_but_memos (b b' : tbody) : Prop :=
  tb_body E O IDP b' = tb_body E O IDP b /\ tb_tproofs E O IDP b' = tb_tproofs E O IDP b /\
  tb_idin E O IDP b' = tb_idin E O IDP b /\ tb_idout E O IDP b' = tb_idout E O IDP b.
Definition body_same (np : npol) (b b' : tbody) : Prop :=
  same_but_memos b b' /\
  exists mi mo mi' mo', tb_memos E O IDP b = mi ++ mo /\ tb_memos E O IDP b' = mi' ++ mo' /\
    side_same (np_in E IP CM np) (x_in E O (tb_body E O IDP b)) mi mi' /\ side_same (np_out E IP CM np) (x_out E O (tb_body E O IDP b)) mo mo'.

(** The slot [j] of record [i] in a transfer: the record, the policy, the memo. *)
Definition slot_at (b : tbody) (np : npol) (i j : nat) (r : bar E) (p : policy) (m : tmemo) : Prop :=
  nth_error (x_in E O (tb_body E O IDP b) ++ x_out E O (tb_body E O IDP b)) i = Some r /\
  (exists ps, nth_error (np_in E IP CM np ++ np_out E IP CM np) i = Some ps /\ nth_error ps j = Some p) /\
  (exists ms, nth_error (tb_memos E O IDP b) i = Some ms /\ nth_error ms j = Some m).
End Spec.
