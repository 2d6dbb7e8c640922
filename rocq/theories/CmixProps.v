(** C17-C19: the confidential multi-asset mix. *)
From Coq Require Import List Arith NArith ZArith Bool Lia Permutation Field Ring.
From Verif Require Import Base Field PField PolyModel PolySpec CmixModel CmixSpec CmixProofs CmixSystem CmixPhase CmixTop CmixLemmas CmixCount.
Import ListNotations.
Local Open Scope F_scope.

Section Props.
Context {F : PField}.
Add Field Fpr : (f_th F).
(** The challenges come from a set [S] of field elements. *)
Notation from S := (fun ch : nat -> F => forall i, In (ch i) S).
(** The set is large enough for lists of [n] records. *)
Definition enough (S : list F) (n : nat) : Prop := NoDup S /\ (4 * (n * n) < length S)%nat.

(** *** C17: conservation for equal numbers of records *)
(** In the field: whatever the records are. *)
Theorem C17_field_totals (S : list F) (ins outs : list (mval F)) : enough S (length ins) -> (2 <= length ins)%nat -> length outs = length ins ->
  can_mix (from S) ins outs -> (forall t, ftotal t ins = ftotal t outs) /\ Forall is64 outs.
Proof.
  intros [ND LS] L2 L H. destruct S as [|x0 S0]; [cbn in LS; lia|]. set (S := x0 :: S0) in *.
  destruct (mix_sound (fun x => In x S) x0 ins outs) as [U [Y [M [U' [Y' [M' [P [Z [Z' [LP [[A [B C]] R]]]]]]]]]]]; try lia; [now left|exact H|].
  split; [|exact R]. intros t. rewrite (side_ftotal S ND ins U Y M t L2 LS Z A).
  rewrite (side_ftotal S ND outs U' Y' M' t) by (rewrite ?L; auto; rewrite L in Z'; exact Z').
  rewrite L, Nat.max_id, Nat.min_id, Nat.sub_diag in LP. destruct P; [|discriminate LP]. unfold padl, padr in C. rewrite L, Nat.ltb_irrefl, app_nil_r in C.
  apply ftotal_perm. destruct Z as [LM _], Z' as [LM' _]. rewrite L in LM'. destruct M as [|m0 [|m1 M]]; [cbn in LM; lia|cbn in LM; lia|].
  cbn [final] in C. apply (shuf_perm S ND); auto; rewrite LM; [exact LS|now symmetry].
Qed.

(** Amounts that are small numbers are determined by their field elements. *)
Lemma fofN_small (a b : N) : (Z.of_N a < pchar F)%Z -> (Z.of_N b < pchar F)%Z -> fofN (F := F) a = fofN b -> a = b.
Proof. intros A B E. unfold fofN in E. apply N2Z.inj. rewrite <- (toZ_small F (Z.of_N a)), <- (toZ_small F (Z.of_N b)) by lia. now rewrite E. Qed.
Lemma in_total (l : list (N * F)) a t : In (a, t) l -> (a <= total t l)%N.
Proof.
  induction l as [|[b u] l IH]; [intros []|]. intros [E|H]; cbn [total].
  - injection E as -> ->. rewrite (proj2 (feqb_true t t) eq_refl). lia.
  - specialize (IH H). lia.
Qed.
Lemma total_bound (l : list (N * F)) k t : Forall (fun r => (fst r < k)%N) l -> (total t l <= N.of_nat (length l) * k)%N.
Proof. induction 1 as [|[a u] l A _ IH]; cbn [total length fst] in *; [lia|]. destruct (feqb t u); lia. Qed.
Lemma records_inj (a b : list (N * F)) : Forall (fun r => (Z.of_N (fst r) < pchar F)%Z) a -> Forall (fun r => (Z.of_N (fst r) < pchar F)%Z) b -> records a = records b -> a = b.
Proof.
  revert b. induction a as [|[x t] a IH]; intros [|[y u] b] A B E; try discriminate E; [reflexivity|]. cbn in E. injection E as E1 E2 E3.
  inversion A; inversion B; subst. cbn [fst] in *. apply fofN_small in E1; auto. subst y. f_equal. now apply IH.
Qed.
Lemma is64_records (l : list (N * F)) : Forall (fun r => (Z.of_N (fst r) < pchar F)%Z) l -> Forall is64 (records l) -> Forall (fun r => (fst r < 2 ^ 64)%N) l.
Proof.
  intros A B. rewrite Forall_forall in *. intros r Hr. specialize (A r Hr). specialize (B (mkVal (fofN (fst r)) (snd r)) (in_map (fun r => mkVal (fofN (fst r)) (snd r)) l r Hr)).
  unfold is64 in B. cbn [amount] in B. unfold fofN in B. rewrite toZ_small in B by lia. apply N2Z.inj_lt. rewrite N2Z.inj_pow. exact B.
Qed.
Lemma bounded_by_total (m v : list (N * F)) b : (forall t, total t m = total t v) -> (forall t, (Z.of_N (total t v) < b)%Z) -> Forall (fun r => (Z.of_N (fst r) < b)%Z) m.
Proof. intros E B. apply Forall_forall. intros [a t] H. apply in_total in H. specialize (B t). rewrite E in H. cbn. lia. Qed.

(** The general form: what is true for two or more records on each side. The amounts of the
    inputs are 64-bit numbers, those of the outputs arbitrary, and the field has room for the
    sums. The totals of the side with fewer records never exceed those of the other side. *)
Lemma conserve (S : list F) (ins outs : list (N * F)) : enough S (Nat.max (length ins) (length outs)) -> (2 <= length ins)%nat -> (2 <= length outs)%nat ->
  (Z.of_nat (Nat.max (length ins) (length outs)) * 2 ^ 64 < pchar F)%Z ->
  Forall (fun r => (fst r < 2 ^ 64)%N) ins -> Forall (fun r => (Z.of_N (fst r) < pchar F)%Z) outs ->
  can_mix (from S) (records ins) (records outs) ->
  Forall (fun r => (fst r < 2 ^ 64)%N) outs /\
  ((length outs <= length ins)%nat -> forall t, (total t outs <= total t ins)%N) /\
  ((length ins <= length outs)%nat -> forall t, (total t ins <= total t outs)%N).
Proof.
  intros [ND LS] L2 L2' PC HI HO H. set (n := length ins) in *. set (m := length outs) in *. destruct S as [|x0 S0]; [cbn in LS; lia|]. set (S := x0 :: S0) in *.
  assert (Ln : length (records ins) = n) by apply map_length. assert (Lm : length (records outs) = m) by apply map_length.
  destruct (mix_sound (fun x => In x S) x0 (records ins) (records outs)) as [U [Y [M [U' [Y' [M' [P [Z [Z' [LP [[A [B C]] R]]]]]]]]]]]; try lia; [now left|exact H|].
  rewrite Ln, Lm in *. apply is64_records in R; [|exact HO]. split; [exact R|].
  destruct (side_records S ND ins U Y M) as [a [Ea Ta]]; auto; [fold n; nia|].
  destruct (side_records S ND outs U' Y' M') as [b [Eb Tb]]; auto; [fold m; nia|].
  assert (BI : forall t, (Z.of_N (total t ins) < pchar F)%Z) by (intros t; pose proof (total_bound ins _ t HI) as Q; fold n in Q; change (2 ^ 64)%Z with (Z.of_N (2 ^ 64)) in PC; nia).
  assert (BO : forall t, (Z.of_N (total t outs) < pchar F)%Z) by (intros t; pose proof (total_bound outs _ t R) as Q; fold m in Q; change (2 ^ 64)%Z with (Z.of_N (2 ^ 64)) in PC; nia).
  assert (Sa := bounded_by_total a ins _ Ta BI). assert (Sb := bounded_by_total b outs _ Tb BO).
  destruct Z as [LM _], Z' as [LM' _].
  destruct (pad_lengths n m M M' P LM LM' LP) as [PL PR].
  assert (PM : Permutation (padl n m M P) (padr n m M' P)).
  { destruct (padl n m M P) as [|q0 [|q1 q]] eqn:EQ; [cbn in PL; lia|cbn in PL; lia|]. cbn [final] in C. apply (shuf_perm S ND); auto; rewrite PL; [exact LS|now symmetry]. }
  unfold padl, padr in PM. destruct (Nat.ltb_spec n m) as [Lt|Ge].
  - split; [lia|]. intros _ t. apply Permutation_sym in PM. rewrite Eb in PM. apply Permutation_sym, Permutation_map_inv in PM. destruct PM as [q [Eq Pq]].
    symmetry in Eq; apply map_eq_app in Eq. destruct Eq as [q1 [q2 [-> [E1 E2]]]]. fold (records q1) in E1. rewrite Ea in E1. apply records_inj in E1; [|apply (Forall_app _ q1 q2), Forall_forall; intros r Hr; rewrite Forall_forall in Sb; apply Sb, (Permutation_in r (Permutation_sym Pq) Hr)|exact Sa].
    subst q1. rewrite <- Ta, <- Tb, (total_perm t b _ Pq), total_app. lia.
  - split; [|intros Le]; intros; rewrite Ea in PM; apply Permutation_sym, Permutation_map_inv in PM; destruct PM as [q [Eq Pq]]; symmetry in Eq; apply map_eq_app in Eq; destruct Eq as [q1 [q2 [-> [E1 E2]]]]; fold (records q1) in E1; rewrite Eb in E1;
      (apply records_inj in E1; [|apply (Forall_app _ q1 q2), Forall_forall; intros r Hr; rewrite Forall_forall in Sa; apply Sa, (Permutation_in r (Permutation_sym Pq) Hr)|exact Sb]);
      subst q1; rewrite <- Ta, <- Tb, (total_perm t a _ Pq), total_app; [lia|].
    assert (length P = 0)%nat by lia. destruct P; [|discriminate]. destruct q2; [cbn; lia|discriminate E2].
Qed.

Theorem C17_integer_totals (S : list F) (ins outs : list (N * F)) : enough S (length ins) -> (2 <= length ins)%nat -> length outs = length ins ->
  (Z.of_nat (length ins) * 2 ^ 64 < pchar F)%Z -> Forall (fun r => (fst r < 2 ^ 64)%N) ins -> Forall (fun r => (Z.of_N (fst r) < pchar F)%Z) outs ->
  can_mix (from S) (records ins) (records outs) ->
  (forall t, total t outs = total t ins) /\ Forall (fun r => (fst r < 2 ^ 64)%N) outs.
Proof.
  intros E L2 L PC HI HO H. destruct (conserve S ins outs) as [A [B C]]; rewrite ?L, ?Nat.max_id; auto.
  split; [|exact A]. intros t. specialize (B ltac:(lia) t). specialize (C ltac:(lia) t). lia.
Qed.

(** *** C18: the other numbers of records *)
(** With more inputs than outputs nothing is created. *)
Theorem C18_no_inflation (S : list F) (ins outs : list (N * F)) : enough S (length ins) -> (2 <= length outs <= length ins)%nat ->
  (Z.of_nat (length ins) * 2 ^ 64 < pchar F)%Z -> Forall (fun r => (fst r < 2 ^ 64)%N) ins -> Forall (fun r => (Z.of_N (fst r) < pchar F)%Z) outs ->
  can_mix (from S) (records ins) (records outs) ->
  (forall t, (total t outs <= total t ins)%N) /\ Forall (fun r => (fst r < 2 ^ 64)%N) outs.
Proof.
  intros E L PC HI HO H. destruct (conserve S ins outs) as [A [B _]]; try (replace (Nat.max (length ins) (length outs)) with (length ins) by lia); auto; try lia. split; [|exact A]. apply B. lia.
Qed.
(** Outputs are always 64-bit numbers. *)
Theorem C18_outputs_in_range (x0 : F) (ins outs : list (mval F)) : (1 <= length ins)%nat -> (1 <= length outs)%nat ->
  can_mix (fun ch => forall i, ch i = x0) ins outs -> Forall is64 outs.
Proof. intros A B H. destruct (mix_sound (fun x => x = x0) x0 ins outs eq_refl A B H) as [U [Y [M [U' [Y' [M' [P [_ [_ [_ [_ R]]]]]]]]]]]. exact R. Qed.

(** One input record: every list of 64-bit outputs is accepted, for all challenges. *)
Theorem C18_one_input_refuted (v : mval F) (outs : list (mval F)) : (1 <= length outs)%nat -> Forall is64 outs -> can_mix (fun _ => True) [v] outs.
Proof.
  intros L R. destruct outs as [|o outs]; [cbn in L; lia|].
  destruct (side_any [v] ltac:(cbn; lia) [o] ltac:(reflexivity) ltac:(cbn; lia)) as [U [Y [A Z]]].
  destruct (side_any (o :: outs) ltac:(cbn; lia) (o :: outs) ltac:(auto) ltac:(auto)) as [U' [Y' [A' Z']]].
  apply (mix_complete (fun _ => True) [v] (o :: outs) U Y [o] U' Y' (o :: outs) outs); auto; try (cbn; lia).
  split; [exact A|]. split; [exact A'|]. apply final_perm. unfold padl, padr. destruct outs as [|o1 outs]; reflexivity.
Qed.
(** One output record: every 64-bit output is accepted. *)
Theorem C18_one_output_refuted (ins : list (mval F)) (v : mval F) : (1 <= length ins)%nat -> is64 v -> can_mix (fun _ => True) ins [v].
Proof.
  intros L R. destruct ins as [|i ins]; [cbn in L; lia|].
  destruct (side_any (i :: ins) ltac:(cbn; lia) (i :: ins) ltac:(auto) ltac:(auto)) as [U [Y [A Z]]].
  destruct (side_any [v] ltac:(cbn; lia) [i] ltac:(reflexivity) ltac:(cbn; lia)) as [U' [Y' [A' Z']]].
  apply (mix_complete (fun _ => True) (i :: ins) [v] U Y (i :: ins) U' Y' [i] ins); auto; try (cbn; lia).
  split; [exact A|]. split; [exact A'|]. apply final_perm. unfold padl, padr. cbn [length]. destruct ins; reflexivity.
Qed.
(** More outputs than inputs: the padding is not constrained to be zero, so records can be added. *)
Theorem C18_more_outputs_refuted (ins extra : list (mval F)) : (1 <= length ins)%nat -> (1 <= length extra)%nat -> Forall is64 (ins ++ extra) -> can_mix (fun _ => True) ins (ins ++ extra).
Proof.
  intros L1 L2 R. assert (LA : length (ins ++ extra) = (length ins + length extra)%nat) by apply app_length.
  destruct (side_any ins L1 ins ltac:(auto) ltac:(auto)) as [U [Y [A Z]]].
  destruct (side_any (ins ++ extra) ltac:(lia) (ins ++ extra) ltac:(auto) ltac:(auto)) as [U' [Y' [A' Z']]].
  apply (mix_complete (fun _ => True) ins (ins ++ extra) U Y ins U' Y' (ins ++ extra) extra); auto; try lia.
  split; [exact A|]. split; [exact A'|]. apply final_perm. unfold padl, padr. destruct (Nat.ltb_spec (length ins) (length (ins ++ extra))); [reflexivity|lia].
Qed.
(** More inputs than outputs: records can be dropped. *)
Theorem C18_more_inputs_lose_value_refuted (outs lost : list (mval F)) : (1 <= length outs)%nat -> (1 <= length lost)%nat -> Forall is64 outs -> can_mix (fun _ => True) (outs ++ lost) outs.
Proof.
  intros L1 L2 R. assert (LA : length (outs ++ lost) = (length outs + length lost)%nat) by apply app_length.
  destruct (side_any outs L1 outs ltac:(auto) ltac:(auto)) as [U [Y [A Z]]].
  destruct (side_any (outs ++ lost) ltac:(lia) (outs ++ lost) ltac:(auto) ltac:(auto)) as [U' [Y' [A' Z']]].
  apply (mix_complete (fun _ => True) (outs ++ lost) outs U' Y' (outs ++ lost) U Y outs lost); auto; try lia.
  split; [exact A'|]. split; [exact A|]. apply final_perm. unfold padl, padr. destruct (Nat.ltb_spec (length (outs ++ lost)) (length outs)); [lia|reflexivity].
Qed.

(** *** C19: honest provers *)
Theorem C19_sort_is_permutation (l : list (mval F)) : Permutation (sort l) l. Proof. exact (sort_perm l). Qed.
Theorem C19_sort_groups_types (l : list (mval F)) : grouped (sort l). Proof. exact (sort_grouped l). Qed.
(** Merging keeps the totals; in a grouped list each type keeps exactly one record, its total,
    and all other records become (0, 0). *)
Theorem C19_merge_totals (l i m : list (mval F)) : merge l = Ok (i, m) -> grouped l -> length m = length l /\ (forall t, ftotal t m = ftotal t l) /\
  forall t, In t (map (@atype F) l) -> t <> 0 -> filter (fun v => feqb t (atype v)) m = [mkVal (ftotal t l) t].
Proof.
  intros E G. destruct l as [|v l]; [discriminate E|]. destruct (merge_canon l v G) as [P K]. destruct (merge_loop_length l v) as [L1 L2].
  assert (PC : Permutation m (canon (v :: l))).
  { destruct l as [|u l]; [injection E as <- <-; exact P|]. unfold merge in E. destruct (merge_loop v (u :: l)) as [a b]. cbn [fst snd] in *. injection E as <- <-.
    assert (LD : last a dval = last a v) by (destruct a as [|a0 a]; [discriminate L1|]; now rewrite !last_shift). rewrite LD. exact P. }
  assert (LM : length m = length (v :: l)).
  { rewrite (Permutation_length PC). unfold canon. rewrite app_length, map_length, repeat_length. pose proof (types_le (v :: l)). lia. }
  split; [exact LM|].
  assert (FT : forall t (ts : list F) n, NoDup ts -> ftotal t (map (fun t => mkVal (ftotal t (v :: l)) t) ts ++ repeat dval n) = if in_dec fdec t ts then ftotal t (v :: l) else 0).
  { intros t ts n ND. rewrite ftotal_app. assert (Z : ftotal t (repeat dval n) = 0) by (induction n as [|n IHn]; cbn in *; [reflexivity|]; rewrite IHn; destruct (feqb t 0); ring). rewrite Z.
    set (T := fun t => ftotal t (v :: l)). change (fun t0 => mkVal (ftotal t0 (v :: l)) t0) with (fun t0 => mkVal (T t0) t0). change (ftotal t (v :: l)) with (T t). clearbody T.
    induction ND as [|x ts Hx ND IH]; [cbn; ring|]. cbn [map ftotal atype amount]. destruct (feqb t x) eqn:Q.
    - apply feqb_true in Q. subst x. destruct (in_dec fdec t ts); [contradiction|]. destruct (in_dec fdec t (t :: ts)) as [_|N]; [|exfalso; apply N; now left].
      transitivity (T t + (ftotal t (map (fun t0 => mkVal (T t0) t0) ts) + 0)); [ring|]. rewrite IH. ring.
    - assert (NE : x <> t) by (intros ->; rewrite (proj2 (feqb_true t t) eq_refl) in Q; discriminate Q). transitivity (ftotal t (map (fun t0 => mkVal (T t0) t0) ts) + 0); [ring|]. rewrite IH.
      destruct (in_dec fdec t ts) as [Y|N]; destruct (in_dec fdec t (x :: ts)) as [Y'|N']; auto; [exfalso; apply N'; now right|]. destruct Y' as [?|?]; contradiction. }
  split.
  - intros t. rewrite (ftotal_perm t _ _ PC). unfold canon. rewrite FT by apply NoDup_nodup. destruct (in_dec fdec t (types (v :: l))) as [Y|N]; [reflexivity|]. symmetry. apply ftotal_absent. intros Q. apply N. unfold types. now apply nodup_In.
  - intros t Ht N0.
    assert (FP : forall a' b' : list (mval F), Permutation a' b' -> Permutation (filter (fun v => feqb t (atype v)) a') (filter (fun v => feqb t (atype v)) b')).
    { induction 1 as [|x p q Pq IHp|x y p|p q r P1 IH1 P2 IH2]; cbn; [constructor| | |eapply Permutation_trans; eauto].
      - destruct (feqb t (atype x)); [now constructor|exact IHp].
      - destruct (feqb t (atype x)), (feqb t (atype y)); try reflexivity. apply perm_swap. }
    apply FP in PC. assert (EX : filter (fun v => feqb t (atype v)) (canon (v :: l)) = [mkVal (ftotal t (v :: l)) t]).
    { unfold canon. rewrite filter_app. assert (Z : forall n, filter (fun v : mval F => feqb t (atype v)) (repeat dval n) = []).
      { induction n as [|n IHn]; [reflexivity|]. cbn [repeat filter]. cbn [dval atype]. destruct (feqb t 0) eqn:Q; [apply feqb_true in Q; contradiction|exact IHn]. }
      rewrite Z, app_nil_r. assert (IT : In t (types (v :: l))) by (unfold types; now apply nodup_In).
      assert (ND : NoDup (types (v :: l))) by apply NoDup_nodup. revert IT. induction ND as [|x ts Hx ND IH]; [intros []|]. intros IT. cbn [map filter atype]. destruct (feqb t x) eqn:Q.
      - apply feqb_true in Q. subst x. f_equal. clear IH IT. induction ts as [|y ts IHt]; [reflexivity|]. cbn [map filter atype]. destruct (feqb t y) eqn:Q; [apply feqb_true in Q; subst y; exfalso; apply Hx; now left|].
        apply IHt; [intros K'; apply Hx; now right|now inversion ND].
      - apply IH. destruct IT as [->|?]; [rewrite (proj2 (feqb_true t t) eq_refl) in Q; discriminate Q|assumption]. }
    rewrite EX in PC. now apply Permutation_sym, Permutation_length_1_inv in PC.
Qed.
(** The prover's assignment satisfies the complete system for all challenges, and this system
    is the verifier's. *)
Theorem C19_honest_mix_is_satisfied (ch : nat -> F) (ins outs : list (mval F)) : (1 <= length ins)%nat -> (1 <= length outs)%nat ->
  (forall t, In t (map (@atype F) ins) <-> In t (map (@atype F) outs)) -> (forall t, ftotal t ins = ftotal t outs) -> Forall is64 outs ->
  exists iv ov c cv, prover_system ins outs = Ok (iv, ov, c) /\ verifier_system (F := F) (length ins) (length outs) = Ok (iv, ov, cv) /\
    map (record_at (wval c)) iv = ins /\ map (record_at (wval c)) ov = outs /\ same_shape (finish ch c) (finish ch cv) /\
    sat (finish ch c) (wval (finish ch c)).
Proof.
  intros A B T H R. apply same_types_ok in T. apply prover_complete; auto. now apply honest_rel.
Qed.
(** With 64-bit integer amounts: balance per type is enough. *)
Theorem C19_honest_integer_mix (ch : nat -> F) (ins outs : list (N * F)) : (1 <= length ins)%nat -> (1 <= length outs)%nat ->
  (forall t, In t (map snd ins) <-> In t (map snd outs)) -> (forall t, total t ins = total t outs) -> Forall (fun r => (fst r < 2 ^ 64)%N) outs ->
  exists iv ov c cv, prover_system (records ins) (records outs) = Ok (iv, ov, c) /\ verifier_system (F := F) (length ins) (length outs) = Ok (iv, ov, cv) /\
    map (record_at (wval c)) iv = records ins /\ map (record_at (wval c)) ov = records outs /\ same_shape (finish ch c) (finish ch cv) /\
    sat (finish ch c) (wval (finish ch c)).
Proof.
  intros A B T H R. assert (LI : length (records ins) = length ins) by apply map_length. assert (LO : length (records outs) = length outs) by apply map_length.
  assert (TY : forall l : list (N * F), map (@atype F) (records l) = map snd l) by (intros l; unfold records; rewrite map_map; reflexivity).
  rewrite <- LI, <- LO. apply C19_honest_mix_is_satisfied; rewrite ?LI, ?LO; auto.
  - intros t. rewrite !TY. apply T.
  - intros t. rewrite !ftotal_records, H. reflexivity.
  - apply Forall_forall. intros v Hv. apply in_map_iff in Hv. destruct Hv as [r [<- Hr]]. rewrite Forall_forall in R. specialize (R r Hr). unfold is64, fofN. cbn [amount]. rewrite toZ_fofZ.
    pose proof (pchar_gt1 F). apply Z.le_lt_trans with (Z.of_N (fst r)); [apply Z.mod_le; lia|]. apply N2Z.inj_lt in R. exact R.
Qed.
(** An honest mix is accepted in the sense used above, whatever the challenges. *)
Theorem C19_honest_mix_is_accepted (allowed : (nat -> F) -> Prop) (ins outs : list (N * F)) : (1 <= length ins)%nat -> (1 <= length outs)%nat ->
  (forall t, In t (map snd ins) <-> In t (map snd outs)) -> (forall t, total t ins = total t outs) -> Forall (fun r => (fst r < 2 ^ 64)%N) outs ->
  can_mix allowed (records ins) (records outs).
Proof.
  intros A B T H R. assert (LI : length (records ins) = length ins) by apply map_length. assert (LO : length (records outs) = length outs) by apply map_length.
  assert (TY : forall l : list (N * F), map (@atype F) (records l) = map snd l) by (intros l; unfold records; rewrite map_map; reflexivity).
  assert (ST : same_types (records ins) (records outs) = true) by (apply same_types_ok; intros t; rewrite !TY; apply T).
  pose proof (honest_rel (records ins) (records outs) ltac:(lia) ltac:(lia) ST ltac:(intros t; rewrite !ftotal_records, H; reflexivity)) as MR.
  pose proof (vals_sized (length (records ins)) (Some (records ins)) ltac:(lia) eq_refl) as Zi. pose proof (vals_sized (length (records outs)) (Some (records outs)) ltac:(lia) eq_refl) as Zo.
  destruct (vals (length (records ins)) (Some (records ins))) as [[U Y] M], (vals (length (records outs)) (Some (records outs))) as [[U' Y'] M']. cbn [fst snd] in *.
  apply (mix_complete allowed _ _ U Y M U' Y' M' (pads (length (records ins)) (length (records outs)))); auto; try lia; [apply pads_length|].
  apply Forall_forall. intros v Hv. apply in_map_iff in Hv. destruct Hv as [r [<- Hr]]. rewrite Forall_forall in R. specialize (R r Hr). unfold is64, fofN. cbn [amount]. rewrite toZ_fofZ.
  pose proof (pchar_gt1 F). apply Z.le_lt_trans with (Z.of_N (fst r)); [apply Z.mod_le; lia|]. apply N2Z.inj_lt in R. exact R.
Qed.
(** The generators reserved for a mix are exactly the ones needed. *)
Theorem C19_generators_exact (ch : nat -> F) n m : (2 <= n)%nat -> (2 <= m)%nat ->
  exists iv ov c pairs, verifier_system (F := F) n m = Ok (iv, ov, c) /\ nv c = (2 * (n + m) + 3 * length (muls c) + 2 * pairs)%nat /\
    asset_mix_num_generators n m = Ok (length (muls (finish ch c)) + pairs)%nat.
Proof. exact (generators_exact ch n m). Qed.
(** For a single record the count underflows (a panic where overflow checks are on). *)
Theorem C19_single_record_count_panics n m : (n = 1 \/ m = 1)%nat -> asset_mix_num_generators n m = Panic.
Proof.
  intros H. unfold asset_mix_num_generators, csub. destruct (Nat.ltb_spec (3 * n) 2); [reflexivity|]. cbn [bind]. destruct (Nat.ltb_spec (3 * m) 2); [reflexivity|]. cbn [bind].
  destruct (Nat.ltb_spec (3 * Nat.max n m) 2); [reflexivity|]. cbn [bind]. destruct (Nat.ltb_spec n 2); [reflexivity|]. cbn [bind]. destruct (Nat.ltb_spec m 2); [reflexivity|lia].
Qed.
(** Different type sets are refused. *)
Theorem C19_type_mismatch_is_an_error (ins outs : list (mval F)) : ~ (forall t, In t (map (@atype F) ins) <-> In t (map (@atype F) outs)) -> prover_system ins outs = Err.
Proof. intros H. unfold prover_system. destruct (same_types ins outs) eqn:E; [exfalso; apply H; now apply same_types_ok|reflexivity]. Qed.

Lemma range_set k : (Z.of_nat k <= pchar F)%Z -> NoDup (map (fun i => fofZ (F := F) (Z.of_nat i)) (seq 0 k)).
Proof.
  intros H. assert (X : forall l, NoDup l -> (forall i, In i l -> (i < k)%nat) -> NoDup (map (fun i => fofZ (F := F) (Z.of_nat i)) l)).
  { induction 1 as [|a l Ha ND IH]; intros B; cbn; constructor; [|apply IH; intros; apply B; now right]. intros Q. apply in_map_iff in Q. destruct Q as [b [E Hb]]. apply Ha.
    assert (Z.of_nat b = Z.of_nat a).
    { rewrite <- (toZ_small F (Z.of_nat b)), <- (toZ_small F (Z.of_nat a)); [now rewrite E| |]; [specialize (B a (or_introl eq_refl))|specialize (B b (or_intror Hb))]; lia. }
    replace a with b by lia. exact Hb. }
  apply X; [apply seq_NoDup|]. intros i Hi. apply in_seq in Hi. lia.
Qed.
(** *** Examples: the hypotheses are met *)
(** Two assets [t] and [u]: 3 + 4 of the first and 5 of the second become 7, 2 and 3. *)
Lemma example (t u : F) : t <> u -> (1000 * 2 ^ 64 < pchar F)%Z ->
  let ins := [(3, t); (5, u); (4, t)]%N in let outs := [(2, u); (7, t); (3, u)]%N in
  let S := map (fun i => fofZ (F := F) (Z.of_nat i)) (seq 0 37) in
  enough S (length ins) /\ (2 <= length ins)%nat /\ length outs = length ins /\ (Z.of_nat (length ins) * 2 ^ 64 < pchar F)%Z /\
  Forall (fun r => (fst r < 2 ^ 64)%N) ins /\ Forall (fun r => (Z.of_N (fst r) < pchar F)%Z) outs /\ can_mix (from S) (records ins) (records outs).
Proof.
  intros NE PC. cbv zeta. pose (p := pchar F). fold p in PC |- *. split; [split; [apply range_set; fold p; lia|rewrite map_length, seq_length; cbn; lia]|].
  assert (K : forall a b : F, a <> b -> feqb a b = false) by (intros a b N; destruct (feqb_spec a b); [contradiction|reflexivity]).
  split; [cbn; lia|]. split; [reflexivity|]. split; [cbn [length]; lia|]. split; [repeat constructor|]. split; [repeat constructor; cbn [fst]; lia|].
  apply C19_honest_mix_is_accepted; try (cbn; lia).
  - intros x. cbn. tauto.
  - intros x. cbn [total]. destruct (feqb x t) eqn:E1; destruct (feqb x u) eqn:E2; cbn; try reflexivity.
  - repeat constructor.
Qed.
End Props.
Example C17_C19_case : let t := fofZ (F := BLS) 11 in let u := fofZ (F := BLS) 12 in
  let ins := [(3, t); (5, u); (4, t)]%N in let outs := [(2, u); (7, t); (3, u)]%N in
  exists S, enough S (length ins) /\ (Z.of_nat (length ins) * 2 ^ 64 < pchar BLS)%Z /\ can_mix (fun ch => forall i, In (ch i) S) (records ins) (records outs) /\ t <> u.
Proof.
  cbv zeta. assert (NE : fofZ (F := BLS) 11 <> fofZ (F := BLS) 12).
  { intros E. apply (f_equal toZ) in E. rewrite !(toZ_small BLS) in E; [discriminate E| |]; vm_compute; split; congruence. }
  destruct (example (F := BLS) (fofZ 11) (fofZ 12) NE ltac:(vm_compute; reflexivity)) as [A [_ [_ [B [_ [_ C]]]]]]. eexists. split; [exact A|]. split; [exact B|]. split; [exact C|exact NE].
Qed.
(** One unit becomes a thousand: the statement C18 is false for one record and for padded mixes. *)
Example C18_case : let t := fofZ (F := BLS) 11 in
  can_mix (fun _ => True) (records [(1, t)]%N) (records [(1000, t)]%N) /\
  can_mix (fun _ => True) (records [(1, t); (2, t)]%N) (records [(1, t); (2, t); (1000, t)]%N) /\
  total t [(1, t)]%N = 1%N /\ total t [(1000, t)]%N = 1000%N.
Proof.
  cbv zeta. assert (S64 : forall a, (a < 2 ^ 64)%N -> forall t : BLS, is64 (mkVal (fofN a) t)).
  { intros a H t. unfold is64, fofN. cbn [amount]. rewrite toZ_fofZ. pose proof (pchar_gt1 BLS). apply Z.le_lt_trans with (Z.of_N a); [apply Z.mod_le; lia|]. apply N2Z.inj_lt in H. exact H. }
  split; [apply C18_one_input_refuted; [cbn; lia|repeat constructor; now apply S64]|]. split.
  - apply (C18_more_outputs_refuted (records [(1, _); (2, _)]%N) (records [(1000, _)]%N)); [cbn; lia|cbn; lia|]. repeat constructor; now apply S64.
  - cbn [total]. rewrite (proj2 (feqb_true _ _) eq_refl). split; reflexivity.
Qed.

Print Assumptions C17_field_totals.
Print Assumptions C17_integer_totals.
Print Assumptions C18_no_inflation.
Print Assumptions C18_outputs_in_range.
Print Assumptions C18_one_input_refuted.
Print Assumptions C18_one_output_refuted.
Print Assumptions C18_more_outputs_refuted.
Print Assumptions C18_more_inputs_lose_value_refuted.
Print Assumptions C19_sort_is_permutation.
Print Assumptions C19_sort_groups_types.
Print Assumptions C19_merge_totals.
Print Assumptions C19_honest_mix_is_satisfied.
Print Assumptions C19_honest_integer_mix.
Print Assumptions C19_type_mismatch_is_an_error.
Print Assumptions C19_honest_mix_is_accepted.
Print Assumptions C19_generators_exact.
Print Assumptions C19_single_record_count_panics.
