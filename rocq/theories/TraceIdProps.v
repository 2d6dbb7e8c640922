(** C75: identity policies.  What an accepted batch of transfers says about the identity
    proofs that its policies ask for. *)
From Coq Require Import List NArith ZArith Bool Lia ZifyBool ZifyNat ZifyN.
From Verif Require Import Base Field UtilsModel XfrModel XfrSpec SigmaModel SigmaSpec NoteModel KeyModel HybModel KeySpec RecordModel RecordSpec TraceModel TraceSpec TraceProofs TraceProps
  Zp Primality XfrToy.
Import ListNotations.
Local Open Scope N_scope.

Section Trace.
Context (E : pgroup) (O : oracles E) (as_scalar : N -> PF E).
Context {BF : Field} {BG : Mod BF} (IP IDP CM : Type).
Context (ac_verify : IP -> BG -> CM -> list (BG * BG) -> IDP -> res unit).
Context (chal : oracle (F := PF E) (G := PG E)) (t0 : transcript (F := PF E) (G := PG E)).
Local Notation policy := (policy E (BG := BG) IP).
Local Notation tmemo := (tmemo E (BG := BG)).
Local Notation tbody := (tbody E O (BG := BG) IDP).
Local Notation npol := (npol E (BG := BG) IP CM).
Local Notation verify_transfers := (batch_verify_traced_bodies E O as_scalar IP IDP CM ac_verify chal t0).
Local Notation slot_at := (slot_at E O IP IDP CM).

(** What the policy [p] demands of the identity proof [pf] in its slot: a proof exactly
    if the policy asks for an identity, and one that the credential library accepts for
    the policy's tracing key, the registered commitment and the memo's ciphertexts. *)
Definition identity_met (p : policy) (m : tmemo) (pf : option IDP) (sig : option CM) : Prop :=
  match p_ident E IP p with
  | Some ip => exists c y, sig = Some c /\ pf = Some y /\ ac_verify ip (ek_attr E (p_keys E IP p)) c (tm_attrs E m) y = Ok tt
  | None => pf = None
  end.

Lemma slot_met sig p m pf : verify_identity_slot E IP IDP CM ac_verify sig (p, (m, pf)) = Ok tt -> identity_met p m pf sig.
Proof.
  unfold verify_identity_slot, identity_met. destruct (p_ident E IP p) as [ip|], pf as [y|]; try discriminate; [|reflexivity].
  destruct sig as [c|]; [|discriminate]. intros V. now exists c, y.
Qed.
Lemma nth_some {A} (l : list A) i n : length l = n -> (i < n)%nat -> exists x, nth_error l i = Some x.
Proof. intros L Hi. destruct (nth_error l i) as [x|] eqn:Q; [now exists x|]. apply nth_error_None in Q. lia. Qed.
Lemma side_met ps ms pfs sigs : length ps = length ms -> verify_identity_proofs E IP IDP CM ac_verify ps ms pfs sigs = Ok tt ->
  length pfs = length ps /\ length sigs = length ps /\
  forall i j qs p ml m, nth_error ps i = Some qs -> nth_error qs j = Some p -> nth_error ms i = Some ml -> nth_error ml j = Some m ->
  exists fl pf sig, nth_error pfs i = Some fl /\ length fl = length qs /\ nth_error fl j = Some pf /\ nth_error sigs i = Some sig /\ identity_met p m pf sig.
Proof.
  intros Hl. unfold verify_identity_proofs. destruct (Nat.eqb_spec (length ms) (length pfs)) as [E1|]; [|discriminate]. cbn [negb orb].
  destruct (Nat.eqb_spec (length ps) (length sigs)) as [E2|]; [|discriminate]. cbn [negb]. intros Q. apply bind_inv in Q. destruct Q as [[] [_ Q]].
  apply rmap_ok in Q. destruct Q as [l [Q _]]. apply mapM_ok in Q. split; [lia|]. split; [lia|].
  intros i j qs p ml m Hq Hp Hml Hm. assert (Hi : (i < length ps)%nat) by (apply nth_error_Some; congruence).
  destruct (nth_some pfs i (length ps)) as [fl Hf]; [lia|exact Hi|]. destruct (nth_some sigs i (length ps)) as [sig Hs]; [lia|exact Hi|].
  assert (X : nth_error (combine ps (combine ms (combine pfs sigs))) i = Some (qs, (ml, (fl, sig)))) by (now rewrite !nth_combine, Hq, Hml, Hf, Hs).
  apply nth_error_In in X. destruct (Forall2_in_l _ _ _ _ Q X) as [y [_ Hy]]. unfold verify_identity_record in Hy.
  destruct (Nat.eqb_spec (length qs) (length ml)) as [E3|]; [|discriminate]. cbn [negb orb] in Hy.
  destruct (Nat.eqb_spec (length qs) (length fl)) as [E4|]; [|discriminate]. cbn [negb] in Hy.
  assert (Hj : (j < length qs)%nat) by (apply nth_error_Some; congruence). destruct (nth_some fl j (length qs)) as [pf Hpf]; [lia|exact Hj|].
  exists fl, pf, sig. split; [exact Hf|]. split; [lia|]. split; [exact Hpf|]. split; [exact Hs|].
  apply rmap_ok in Hy. destruct Hy as [l' [Hy _]]. apply mapM_ok in Hy.
  assert (X2 : nth_error (combine qs (combine ml fl)) j = Some (p, (m, pf))) by (now rewrite !nth_combine, Hp, Hm, Hpf).
  apply nth_error_In in X2. destruct (Forall2_in_l _ _ _ _ Hy X2) as [[] [_ Hz]]. now apply slot_met.
Qed.

(** C75: in an accepted batch every transfer has its policies, all of them valid, one
    list for each record. *)
Theorem C75_every_transfer_has_valid_policies :
  forall g (bodies : list tbody) (nps : list npol), verify_transfers g bodies nps = Ok tt ->
  length bodies = length nps /\ (forall np, In np nps -> np_valid E IP CM np = true) /\
  forall b np, In (b, np) (combine bodies nps) ->
    length (np_in E IP CM np) = length (x_in E O (tb_body E O IDP b)) /\ length (np_out E IP CM np) = length (x_out E O (tb_body E O IDP b)).
Proof.
  intros g bodies nps V. apply bind_inv in V. destruct V as [[] [_ V]].
  assert (L : length bodies = length nps) by (unfold batch_verify_tracing in V; destruct (Nat.eqb_spec (length bodies) (length nps)); [assumption|discriminate]).
  split; [exact L|]. split.
  - unfold batch_verify_tracing in V. destruct (negb (Nat.eqb _ _)); [discriminate|]. destruct (forallb (np_valid E IP CM) nps) eqn:F; [|discriminate]. now rewrite forallb_forall in F.
  - intros b np Hin. assert (M : map fst (combine bodies nps) = bodies /\ map snd (combine bodies nps) = nps).
    { clear -L. revert nps L. induction bodies as [|x l IH]; intros [|y k] L; try discriminate; [split; reflexivity|]. cbn [combine map fst snd]. injection L as L. destruct (IH k L) as [-> ->]. split; reflexivity. }
    destruct M as [M1 M2]. replace bodies with (map fst (combine bodies nps)) in V by exact M1. rewrite <- M2 in V at 2. destruct (accepted_shape E O (m0 : BG) IP IDP CM ac_verify chal t0 _ g b np V Hin) as [A [B _]]. now split.
Qed.

(** C75: in an accepted batch every slot has an identity proof exactly if its policy asks
    for an identity, and then the credential library accepts it. *)
Theorem C75_identity_policies_are_enforced :
  forall g (l : list (tbody * npol)) b np i j r p m, verify_transfers g (map fst l) (map snd l) = Ok tt -> In (b, np) l -> slot_at b np i j r p m ->
  exists pfs pf sig, nth_error (tb_idin E O IDP b ++ tb_idout E O IDP b) i = Some pfs /\ nth_error pfs j = Some pf /\
    nth_error (np_insig E IP CM np ++ np_outsig E IP CM np) i = Some sig /\ identity_met p m pf sig.
Proof.
  intros g l b np i j r p m V Hin (Hr & (qs & Hq & Hp) & ml & Hml & Hm). apply bind_inv in V. destruct V as [[] [_ V]].
  destruct (accepted_shape E O (m0 : BG) IP IDP CM ac_verify chal t0 l g b np V Hin) as [L1 [L2 [L3 _]]].
  destruct (accepted_parts E O IP IDP CM ac_verify chal t0 l g V) as [_ [_ [_ [_ [_ Hid]]]]].
  rewrite Forall_forall in Hid. specialize (Hid _ Hin). unfold verify_identities in Hid. destruct (Nat.ltb _ _); [discriminate|]. apply bind_inv in Hid. destruct Hid as [[] [I1 I2]].
  set (n := length (x_in E O (tb_body E O IDP b))) in *.
  apply side_met in I1; [|rewrite firstn_length; lia]. apply side_met in I2; [|rewrite skipn_length; lia].
  destruct I1 as [A1 [A2 A3]], I2 as [B1 [B2 B3]].
  destruct (Nat.lt_ge_cases i n) as [Hn|Hn].
  - rewrite nth_error_app1 in Hq by lia. destruct (A3 i j qs p ml m Hq Hp) as (fl & pf & sig & F1 & _ & F2 & F3 & F4); [rewrite nth_firstn_lt by exact Hn; exact Hml|exact Hm|].
    exists fl, pf, sig. rewrite !nth_error_app1 by lia. auto.
  - rewrite nth_error_app2 in Hq by lia. rewrite L1 in Hq. destruct (B3 (i - n)%nat j qs p ml m Hq Hp) as (fl & pf & sig & F1 & _ & F2 & F3 & F4); [rewrite nth_skipn; now replace (n + (i - n))%nat with i by lia|exact Hm|].
    exists fl, pf, sig. rewrite !nth_error_app2 by lia. rewrite A1, A2, L1. auto.
Qed.
End Trace.
Print Assumptions C75_every_transfer_has_valid_policies.
Print Assumptions C75_identity_policies_are_enforced.

(** The transfer of TraceProps with a policy that asks for the identity of its input: it
    is accepted with an identity proof that the credential library accepts for the
    registered commitment 5, and refused with no proof, no commitment, another commitment,
    a proof that nobody asked for, policies marked invalid, and no policies. *)
Definition id_ac (_ : unit) (_ : case_bg) (c : N) (_ : list (case_bg * case_bg)) (_ : unit) : res unit := if N.eqb c 5 then Ok tt else Err.
Definition id_policy : policy toy (BG := case_bg) unit := mkPol toy unit (tk_enc toy case_key) true (Some tt).
Definition id_np (valid : bool) (c : option N) : npol toy (BG := case_bg) unit N := mkNp toy unit N valid [[id_policy]] [c] [[case_policy true]] [None].
Definition id_body (pin pout : option unit) : tbody toy case_o (BG := case_bg) unit :=
  let b := case_body true in mkTb toy case_o unit (tb_body toy case_o unit b) (tb_tproofs toy case_o unit b) [[pin]] [[pout]] (tb_memos toy case_o unit b) (tb_owners toy case_o unit b).
Definition id_verify : list (tbody toy case_o (BG := case_bg) unit) -> list (npol toy (BG := case_bg) unit N) -> res unit :=
  batch_verify_traced_bodies toy case_o case_sc unit unit N id_ac case_chal [] (fun k => fofN (N.of_nat k + 9)).
Example C75_identity_case :
  id_verify [id_body (Some tt) None] [id_np true (Some 5)] = Ok tt /\
  id_verify [id_body None None] [id_np true (Some 5)] = Err /\ id_verify [id_body (Some tt) None] [id_np true None] = Err /\
  id_verify [id_body (Some tt) None] [id_np true (Some 6)] = Err /\ id_verify [id_body (Some tt) (Some tt)] [id_np true (Some 5)] = Err /\
  id_verify [id_body (Some tt) None] [id_np false (Some 5)] = Err /\ id_verify [id_body (Some tt) None] [] = Err.
Proof. repeat split; vm_compute; reflexivity. Qed.
