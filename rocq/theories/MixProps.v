(** Property theorems for anonymous-transfer balancing (C13, C14, C15). *)
From Coq Require Import List NArith ZArith Bool Lia.
From Verif Require Import Base Field PField TurboModel TurboSpec TurboProofs TurboHonest TurboKit
  XfrModel XfrSpec MixModel MixSpec MixProofs MixLemmas.
Import ListNotations.
Local Open Scope F_scope.

(** C13 (what holds): if the builder's check passes, every asset type other than
    the fee type is conserved; and if some record has the fee type, the fee type
    is conserved up to the fee. *)
Theorem C13_builder_balances_partial :
  forall ins outs fee, check_asset_amount ins outs fee = Ok tt ->
  (forall t, t <> FEE_TYPE -> total t ins = total t outs) /\
  (In FEE_TYPE (map snd (ins ++ outs)) -> balanced FEE_TYPE ins outs fee).
Proof.
  intros ins outs fee H.
  assert (A : forall t, t <> FEE_TYPE -> total t ins = total t outs).
  { intros t Ht. destruct (in_dec N.eq_dec t (map snd (ins ++ outs))) as [i|n].
    - rewrite map_app, in_app_iff in i. pose proof (check_ok _ _ _ H t i) as E.
      destruct (N.eqb_spec t FEE_TYPE); [contradiction|lia].
    - rewrite map_app, in_app_iff in n. rewrite !total_absent by tauto. reflexivity. }
  split; [exact A|]. intros i t. destruct (N.eqb_spec t FEE_TYPE) as [->|n]; [|rewrite (A t n); lia].
  rewrite map_app, in_app_iff in i. pose proof (check_ok _ _ _ H _ i) as E. rewrite N.eqb_refl in E. lia.
Qed.
Print Assumptions C13_builder_balances_partial.

(** C13, converse: every balanced transfer of 64-bit amounts passes. *)
Theorem C13_builder_accepts_balanced :
  forall ins outs fee, Forall (fun r => is_u64 (fst r)) ins -> Forall (fun r => is_u64 (fst r)) outs ->
  (Z.of_nat (length ins + length outs) < 2 ^ 62)%Z ->
  balanced FEE_TYPE ins outs fee -> check_asset_amount ins outs fee = Ok tt.
Proof. exact check_complete. Qed.
Print Assumptions C13_builder_accepts_balanced.

(** C13 is false as stated: without records of the fee type the fee is not
    checked at all. *)
Theorem C13_fee_unchecked_refuted :
  forall fee, check_asset_amount [(7, 5)%N] [(7, 5)%N] fee = Ok tt /\
  (fee <> 0%N -> ~ balanced FEE_TYPE [(7, 5)%N] [(7, 5)%N] fee).
Proof.
  intros fee. split; [reflexivity|]. intros Hf HB. specialize (HB FEE_TYPE). cbn in HB. lia.
Qed.
Print Assumptions C13_fee_unchecked_refuted.

Example C13_case : check_asset_amount [(10, 0); (7, 5)]%N [(3, 5); (8, 0); (4, 5)]%N 2 = Ok tt.
Proof. reflexivity. Qed.
Example C13_case_rejected : check_asset_amount [(10, 0); (7, 5)]%N [(3, 5); (9, 0); (4, 5)]%N 2 = Err.
Proof. reflexivity. Qed.

(** C14 (what holds): over any system, every assignment satisfying the
    asset-mixing constraints in which variables 0 and 1 are zero and one
    conserves every type over the integers, the fee leaving in the fee type,
    has a fee-type input, and gives every output an input of its type. *)
Theorem C14_circuit_conserves_partial :
  forall (F : PField) ins outs (fee_type : F) (fee : nat) (c : tcs F) (w : nat -> F),
  sat (snd (asset_mixing F ins outs fee_type fee c)) w ->
  w 0%nat = 0 -> w 1%nat = 1 ->
  (forall r, In r (ins ++ outs) -> (toZ (w (snd r)) < 2 ^ 64)%Z) -> (toZ (w fee) < 2 ^ 64)%Z ->
  (Z.of_nat (length ins) * 2 ^ 64 < pchar F)%Z -> ((Z.of_nat (length outs) + 1) * 2 ^ 64 < pchar F)%Z ->
  (forall t, t <> fee_type -> ftotal t (vals w ins) = ftotal t (vals w outs)) /\
  ftotal fee_type (vals w ins) = (ftotal fee_type (vals w outs) + toZ (w fee))%Z /\
  (exists r, In r ins /\ w (fst r) = fee_type) /\
  (forall o, In o outs -> exists i, In i ins /\ w (fst i) = w (fst o)).
Proof.
  intros F ins outs ft fee c w Hs C0 C1 HB Hf Li Lo.
  apply (conservation F ins outs ft fee c w Hs (conj C0 C1)); try assumption.
  unfold vals. rewrite <- map_app. apply Forall_forall. intros p Hp. apply in_map_iff in Hp.
  destruct Hp as [r [<- Hr]]. cbn [snd]. now apply HB.
Qed.
Print Assumptions C14_circuit_conserves_partial.

(** C14 is false as stated, because no gate constrains variables 0 and 1.  Take
    any circuit not using variable 1 and any assignment satisfying it (variable 0
    being zero): asset-mixing constraints over any of its variables can always be
    satisfied without changing the value of any variable but variable 1, so the
    amounts and types may be anything. *)
Theorem C14_any_values_satisfiable_refuted :
  forall (F : PField) ins outs (fee_type : F) (fee : nat) (c : tcs F) (w : nat -> F),
  (forall g, In g (gates c) -> wire_lt (nvars c) g /\ avoids_one F g) -> sat c w -> w 0%nat = 0 ->
  (2 <= nvars c)%nat -> (fee < nvars c)%nat ->
  (forall r, In r (ins ++ outs) -> (fst r < nvars c /\ snd r < nvars c)%nat) ->
  exists w', sat (snd (asset_mixing F ins outs fee_type fee c)) w' /\
    forall i, (i < nvars c)%nat -> i <> 1%nat -> w' i = w i.
Proof.
  intros F ins outs ft fee c w HG HS Z N Hf HK.
  assert (HG' : forall g, In g (grev c) -> wire_lt (nvars c) g /\ avoids_one F g).
  { intros g Hg. apply HG. unfold gates. now apply in_rev in Hg. }
  apply forgery; try assumption.
  - unfold wf. apply Forall_forall. intros g Hg. now apply HG'.
  - apply Forall_forall. intros g Hg. now apply HG'.
  - apply Forall_forall. intros r Hr. apply HK, in_app_iff. now left.
  - apply Forall_forall. intros r Hr. apply HK, in_app_iff. now right.
Qed.
Print Assumptions C14_any_values_satisfiable_refuted.

(** In particular over the BLS12-381 scalar field: one fee-type input of 1, one
    fee-type output of 2^64 - 1, fee 0. *)
Definition forged_cs : tcs BLS := snd (new_variables BLS [0; 1; 0; fofZ (2 ^ 64 - 1); 0] (cs_new BLS)).
Theorem C14_value_created_refuted :
  exists w : nat -> BLS,
    sat (snd (asset_mixing BLS [(2, 3)%nat] [(4, 5)%nat] 0 6%nat forged_cs)) w /\
    (forall i, In i [3; 5; 6]%nat -> (toZ (w i) < 2 ^ 64)%Z) /\
    ftotal 0 (vals w [(2, 3)%nat]) = 1%Z /\ ftotal 0 (vals w [(4, 5)%nat]) = (2 ^ 64 - 1)%Z.
Proof.
  destruct (C14_any_values_satisfiable_refuted BLS [(2, 3)%nat] [(4, 5)%nat] 0 6 forged_cs (val forged_cs)) as [w [H1 H2]].
  - intros g [].
  - constructor.
  - reflexivity.
  - cbn. lia.
  - cbn. lia.
  - intros r [<-|[<-|[]]]; cbn; lia.
  - exists w. split; [exact H1|].
    assert (E2 : w 2%nat = 0) by (apply H2; [cbn; lia|lia]).
    assert (E3 : w 3%nat = 1) by (apply H2; [cbn; lia|lia]).
    assert (E4 : w 4%nat = 0) by (apply H2; [cbn; lia|lia]).
    assert (E5 : w 5%nat = fofZ (2 ^ 64 - 1)) by (apply H2; [cbn; lia|lia]).
    assert (E6 : w 6%nat = 0) by (apply H2; [cbn; lia|lia]).
    assert (B : (2 ^ 64 - 1 < pchar BLS)%Z) by reflexivity.
    assert (T5 : toZ (w 5%nat) = (2 ^ 64 - 1)%Z) by (rewrite E5; apply toZ_small; lia).
    assert (T3 : toZ (w 3%nat) = 1%Z) by (rewrite E3; apply toZ_1).
    assert (T6 : toZ (w 6%nat) = 0%Z) by (rewrite E6; apply toZ_0).
    split; [|split].
    + intros i [<-|[<-|[<-|[]]]]; rewrite ?T3, ?T5, ?T6; reflexivity.
    + cbn [vals map ftotal fst snd]. rewrite E2, T3. destruct (f_dec (0 : BLS) 0); [reflexivity|contradiction].
    + cbn [vals map ftotal fst snd]. rewrite E4, T5. destruct (f_dec (0 : BLS) 0); [reflexivity|contradiction].
Qed.
Print Assumptions C14_value_created_refuted.

(** C15 (what holds): if the builder's check accepts the records and the fee, some
    input has the fee type, every output type is an input type and every other
    input type is an output type, then running the circuit on the honest values
    leaves a system satisfied by the prover's witness. *)
Theorem C15_builder_accepted_provable_partial :
  forall (F : PField) (as_scalar : N -> F) ins outs fee vins vouts vfee (c : tcs F),
  check_asset_amount ins outs fee = Ok tt ->
  In FEE_TYPE (map snd ins) -> incl (map snd outs) (map snd ins) ->
  (forall t, In t (map snd ins) -> t <> FEE_TYPE -> In t (map snd outs)) ->
  Inv c ->
  Forall2 (fun r v => has F c (fst r) (as_scalar (snd v)) /\ has F c (snd r) (fofN (fst v))) vins ins ->
  Forall2 (fun r v => has F c (fst r) (as_scalar (snd v)) /\ has F c (snd r) (fofN (fst v))) vouts outs ->
  has F c vfee (fofN fee) ->
  let c' := snd (asset_mixing F vins vouts (as_scalar FEE_TYPE) vfee c) in
  sat c' (val c') /\ forall i, (i < nvars c)%nat -> val c' i = val c i.
Proof.
  intros F as_scalar ins outs fee vins vouts vfee c HC H1 H2 H3 HI Ki Ko Kf c'.
  assert (K : forall l v, Forall2 (fun r v => has F c (fst r) (as_scalar (snd v)) /\ has F c (snd r) (fofN (fst v))) l v ->
    knownh F c l (scalars F as_scalar v)).
  { induction 1; constructor; assumption. }
  destruct (complete_from_check F as_scalar ins outs fee vins vouts vfee c HC H1 H2 H3 HI (K _ _ Ki) (K _ _ Ko) Kf)
    as [I' [E _]].
  split; [apply I'|apply E].
Qed.
Print Assumptions C15_builder_accepted_provable_partial.

(** C15 is false as stated, three ways: the builder accepts, yet no assignment
    with the right conventions and these types and amounts satisfies the circuit.
    [unprovable] says so for all systems, variables and encodings of types that
    separate types 0, 5 and 6. *)
Definition unprovable (ins outs : list (N * N)) (fee : N) : Prop :=
  forall (F : PField) (as_scalar : N -> F) vins vouts vfee (c : tcs F) (w : nat -> F),
  as_scalar 5%N <> as_scalar FEE_TYPE -> as_scalar 6%N <> as_scalar FEE_TYPE -> as_scalar 5%N <> as_scalar 6%N ->
  w 0%nat = 0 -> w 1%nat = 1 ->
  Forall2 (fun r v => w (fst r) = as_scalar (snd v) /\ w (snd r) = fofN (fst v)) vins ins ->
  Forall2 (fun r v => w (fst r) = as_scalar (snd v) /\ w (snd r) = fofN (fst v)) vouts outs ->
  w vfee = fofN fee ->
  ~ sat (snd (asset_mixing F vins vouts (as_scalar FEE_TYPE) vfee c)) w.

Lemma vals_of {F : PField} (as_scalar : N -> F) w l v :
  Forall2 (fun r v => w (fst r) = as_scalar (snd v) /\ w (snd r) = fofN (fst v)) l v ->
  map fst (vals w l) = map as_scalar (map snd v).
Proof. induction 1 as [|r x l v [E _] _ IH]; [reflexivity|]. cbn. rewrite E. f_equal. exact IH. Qed.

Theorem C15_accepted_but_unprovable_refuted :
  (* no input of the fee type *)
  (check_asset_amount [(7, 5)%N] [(7, 5)%N] 0 = Ok tt /\ unprovable [(7, 5)%N] [(7, 5)%N] 0) /\
  (* an output of amount zero whose type no input has *)
  (check_asset_amount [(7, 0)%N] [(7, 0); (0, 5)]%N 0 = Ok tt /\ unprovable [(7, 0)%N] [(7, 0); (0, 5)]%N 0) /\
  (* an input of amount zero whose type no output has *)
  (check_asset_amount [(7, 0); (0, 5)]%N [(7, 0)%N] 0 = Ok tt /\ unprovable [(7, 0); (0, 5)]%N [(7, 0)%N] 0).
Proof.
  assert (G : forall ins outs fee,
    (forall (F : PField) (a : N -> F), a 5%N <> a FEE_TYPE ->
       ~ (In (a FEE_TYPE) (map a (map snd ins)) /\
          (forall t, In t (map a (map snd outs)) -> In t (map a (map snd ins))) /\
          (forall t, t <> a FEE_TYPE -> In t (map a (map snd ins)) -> In t (map a (map snd outs))))) ->
    unprovable ins outs fee).
  { intros ins outs fee H F a vins vouts vfee c w H5 H6 H56 C0 C1 Ki Ko Kf Hs.
    destruct (asset_mixing_sound F vins vouts (a FEE_TYPE) vfee c w Hs) as [_ S].
    destruct (S (conj C0 C1)) as [_ [_ [S1 [S2 S3]]]]. unfold has_type in *.
    rewrite (vals_of a w _ _ Ki), (vals_of a w _ _ Ko) in *. now apply (H F a H5). }
  split; [|split]; (split; [reflexivity|]); apply G; intros F a H5 [A1 [A2 A3]]; cbn in *.
  - destruct A1 as [E|[]]. now apply H5.
  - destruct (A2 (a 5%N)) as [E|[]]; [auto|]. apply H5. now symmetry.
  - destruct (A3 (a 5%N) H5) as [E|[]]; [auto|]. apply H5. now symmetry.
Qed.
Print Assumptions C15_accepted_but_unprovable_refuted.

(** A concrete instance over the field of 101 elements: inputs 10 FRA and 7 of type 5; outputs 3 and 4 of
    type 5 and 8 FRA; fee 2.  The circuit is satisfied by the honest witness, so
    the hypotheses of C14 and C15 are met. *)
Definition c15_ins : list (N * N) := [(10, 0); (7, 5)]%N.
Definition c15_outs : list (N * N) := [(3, 5); (8, 0); (4, 5)]%N.
Definition c15_scalar (t : N) : P101 := fofN t.
Definition c15_cs : tcs P101 :=
  snd (new_variables P101 (map fofN [0; 10; 5; 7; 5; 3; 0; 8; 5; 4; 2]%N) (cs_new P101)).
Definition c15_vins := [(2, 3); (4, 5)]%nat.
Definition c15_vouts := [(6, 7); (8, 9); (10, 11)]%nat.
Example C15_case :
  let c' := snd (asset_mixing P101 c15_vins c15_vouts (c15_scalar FEE_TYPE) 12 c15_cs) in sat c' (val c').
Proof.
  pose proof (ha_news P101 _ (map fofN [0; 10; 5; 7; 5; 3; 0; 8; 5; 4; 2]%N) (inv_new P101)) as [HI [_ HV]].
  fold c15_cs in HI, HV. rewrite news_index in HV. rewrite map_length in HV.
  cbn [map length seq nvars cs_new] in HV.
  assert (V : forall i x, nth_error [0; 10; 5; 7; 5; 3; 0; 8; 5; 4; 2]%N i = Some x -> has P101 c15_cs (2 + i) (fofN x)).
  { clear HI. revert HV. generalize c15_cs (fofN (F := P101)). intros c f H i x Hi.
    assert (Hj := Forall2_nth _ _ _ H i (2 + i)%nat (f x)). apply Hj.
    - do 11 (destruct i as [|i]; [reflexivity|]). cbn in Hi. destruct i; discriminate.
    - do 11 (destruct i as [|i]; [cbn in Hi |- *; congruence|]). cbn in Hi. destruct i; discriminate. }
  clear HV. generalize dependent c15_cs. intros c HI V.
  apply (C15_builder_accepted_provable_partial P101 c15_scalar c15_ins c15_outs 2).
  - reflexivity.
  - now left.
  - intros t [<-|[<-|[<-|[]]]]; cbn; auto.
  - intros t [<-|[<-|[]]] Hn; cbn; auto; now exfalso; apply Hn.
  - exact HI.
  - constructor; [split; [apply (V 0%nat)|apply (V 1%nat)]; reflexivity|].
    constructor; [split; [apply (V 2%nat)|apply (V 3%nat)]; reflexivity|constructor].
  - constructor; [split; [apply (V 4%nat)|apply (V 5%nat)]; reflexivity|].
    constructor; [split; [apply (V 6%nat)|apply (V 7%nat)]; reflexivity|].
    constructor; [split; [apply (V 8%nat)|apply (V 9%nat)]; reflexivity|constructor].
  - apply (V 10%nat). reflexivity.
Qed.
