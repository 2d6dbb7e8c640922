(** Property theorems for histories of anonymous operations (C70). *)
From Coq Require Import List ZArith NArith Bool Lia Permutation.
From Verif Require Import Base Field PField MixSpec AxfrSpec MerkleSpec SimModel HistSpec HistProofs.
Import ListNotations.
Local Open Scope F_scope.

(** C70 (partial: every public key is used with one secret key, see the refutation
    below): in every history a ledger admits, of any length and with any number of assets,
    either the hash failed on inputs met in the history, or the spends consume pairwise
    different created records of the same owner, type and amount, and for every type what
    was shielded is what was unshielded, plus the fees, plus what the records left hold.
    In particular no more is ever unshielded or paid in fees than was shielded. *)
Theorem C70_no_history_creates_value_partial :
  forall (F : PField) (H : F -> F -> F -> F -> F) (ft : F) l, admitted F H ft l -> one_secret l ->
  hash_broken F H l \/
  exists rest,
    Permutation (map content_of (records l)) (map content_spent (spends l) ++ map content_of rest) /\
    forall t, (shielded t l = unshielded t l + fees F ft t l + ftotal t (created F rest))%Z /\
      (unshielded t l + fees F ft t l <= shielded t l)%Z.
Proof.
  intros F H ft l A O. destruct (left_over H ft l A O) as [[rest P]|B]; [|now left]. right. exists rest. split; [exact P|]. intros t.
  pose proof (totals H ft t l (proj1 A)) as E. rewrite (ftotal_perm t _ _ (Permutation_map _ P)), map_app, ftotal_app in E.
  rewrite (map_map content_of _ rest) in E. cbn [content_of fst snd] in E. fold (created F rest) in E.
  pose proof (ftotal_nonneg t (created F rest)). lia.
Qed.
Print Assumptions C70_no_history_creates_value_partial.

(** C70: unless the hash failed, a spend always consumes a record created by an earlier
    event, of the same owner, type and amount, and names its position. *)
Theorem C70_spends_earlier_records :
  forall (F : PField) (H : F -> F -> F -> F -> F) (ft : F) l1 e l2 x, let l := l1 ++ e :: l2 in
  admitted F H ft l -> In x (takes e) ->
  hash_broken F H l \/
  exists i o, nth_error (records l1) i = Some o /\ content_of o = content_spent x /\ sp_uid (snd x) = fofZ (Z.of_nat i).
Proof.
  intros F H ft l1 e l2 x l (Hs & Hk & _) I. destruct (spends_earlier H ft l l1 e l2 x eq_refl Hs Hk I) as [(i & L & o & E & C & U)|B]; [|now left].
  right. exists i, o. split; [|now split]. unfold l, records in E. rewrite flat_map_app, nth_error_app1 in E by exact L. exact E.
Qed.
Print Assumptions C70_spends_earlier_records.

Lemma single_tree {F : PField} (H : F -> F -> F -> F -> F) x h :
  subtree 0 (H3 F H) [x] h 0 = fold_left (parent F H) (repeat (SLeft, 0, 0) h) x.
Proof.
  induction h as [|h IH]; [reflexivity|]. rewrite t_node by (rewrite N.mul_0_l; reflexivity). change (3 * 0)%N with 0%N. change (0 + 1)%N with 1%N. change (0 + 2)%N with 2%N.
  assert (P : (1 <= 3 ^ N.of_nat h)%N) by (pose proof (N.pow_nonzero 3 (N.of_nat h) ltac:(lia)); lia).
  rewrite (t_empty H _ h 1), (t_empty H _ h 2) by (cbn [length]; lia). rewrite IH. change (repeat (SLeft, 0 : F, 0 : F) (S h)) with ((SLeft, 0 : F, 0 : F) :: repeat (SLeft, 0, 0) h).
  rewrite repeat_cons, fold_left_app. reflexivity.
Qed.
(** C70, refuted without the proviso: when one public key is used with two secret keys
    (C23: the circuits accept a second one) that give different nullifiers, one shielded
    record is unshielded twice, and twice its value leaves the pool. *)
Theorem C70_second_secret_refuted :
  forall (F : PField) (H : F -> F -> F -> F -> F) (ft : F) (o : output F) sk sk', u64f (ou_amount o) ->
  let s := mkSpend (fofZ 0) (ou_amount o) (ou_type o) (ou_blind o) (repeat (SLeft, 0, 0) 20) in
  let root := ledger_root F H [output_com F H o] in
  let l := [EShield o; EUnshield (ou_pk o) sk root s; EUnshield (ou_pk o) sk' root s] in
  nullifier F H (ou_pk o) sk s <> nullifier F H (ou_pk o) sk' s ->
  admitted F H ft l /\ (unshielded (ou_type o) l = 2 * shielded (ou_type o) l)%Z /\ shielded (ou_type o) l = toZ (ou_amount o).
Proof.
  intros F H ft o sk sk' U s root l D.
  assert (HT : in_tree F H (ou_pk o) root s).
  { unfold in_tree, root_of, root. rewrite root_high. cbn [sp_uid sp_path s]. unfold leaves. cbn [length seq combine map fst snd].
    rewrite single_tree. reflexivity. }
  split; [split; [|split]|].
  - repeat constructor; try exact U; exact HT.
  - intros l1 e l2 pk0 sk0 r0 s0 El I. assert (K : length (sp_path s) = 20%nat) by (cbn [sp_path s]; apply repeat_length).
    unfold l in El. destruct l1 as [|a l1]; cbn [app] in El; injection El as <- El; [destruct I|].
    destruct l1 as [|b l1]; cbn [app] in El; injection El as <- El.
    + destruct I as [I|[]]. injection I as <- <- <- <-. split; [exact K|]. exists 1%nat. reflexivity.
    + destruct l1 as [|c l1]; cbn [app] in El; injection El as <- El; [|now destruct l1].
      destruct I as [I|[]]. injection I as <- <- <- <-. split; [exact K|]. exists 1%nat. reflexivity.
  - unfold fresh_nullifiers. cbn [spends flat_map takes app map published l]. constructor; [intros [E|[]]; now apply D|]. constructor; [intros []|constructor].
  - unfold unshielded, shielded, zsum, l. cbn [map fold_right sp_type sp_amount s ftotal]. destruct (f_dec (ou_type o) (ou_type o)); [lia|contradiction].
Qed.
Print Assumptions C70_second_secret_refuted.

(** ** A concrete history *)
(** Ten of the fee type are shielded, spent in a transfer to another owner with a fee of
    three, and the remaining seven unshielded.  The toy hash does not fail on it. *)
Definition toyH (a b c d : P101) : P101 := fofZ (1 + toZ a + 2 * toZ b + 2 * toZ c + 5 * toZ d).
Definition ex_pk : P101 * P101 * P101 := (fofZ 11, fofZ 12, fofZ 13).
Definition ex_pk' : P101 * P101 * P101 := (fofZ 21, fofZ 22, fofZ 23).
Definition ex_o1 : output P101 := mkOutput (fofZ 10) 0 (fofZ 77) ex_pk.
Definition ex_o2 : output P101 := mkOutput (fofZ 7) 0 (fofZ 78) ex_pk'.
Definition ex_c1 : P101 := output_com P101 toyH ex_o1.
Definition ex_c2 : P101 := output_com P101 toyH ex_o2.
Definition ex_s1 : spend P101 := mkSpend (fofZ 0) (fofZ 10) 0 (fofZ 77) (repeat (SLeft, 0, 0) 20).
Definition ex_s2 : spend P101 := mkSpend (fofZ 1) (fofZ 7) 0 (fofZ 78) ((SMiddle, leaf P101 toyH 0 ex_c1, 0) :: repeat (SLeft, 0, 0) 19).
Definition ex_history : list (event P101) :=
  [EShield ex_o1; ETransfer ex_pk (fofZ 5, fofZ 6) (ledger_root P101 toyH [ex_c1]) [ex_s1] [ex_o2] (fofZ 3);
   EUnshield ex_pk' (fofZ 8, fofZ 9) (ledger_root P101 toyH [ex_c1; ex_c2]) ex_s2].
Definition ex_node (k h : nat) : P101 * P101 * P101 * P101 :=
  let t := subtree 0 (H3 P101 toyH) (leaves P101 toyH (firstn k [ex_c1; ex_c2])) in (t h 0%N, t h 1%N, t h 2%N, 0).
Definition ex_met : list (P101 * P101 * P101 * P101) :=
  flat_map (fun o => com_inputs P101 toyH (ou_pk o) (ou_blind o) (ou_amount o) (ou_type o)) [ex_o1; ex_o2] ++
  [(fofZ 0, ex_c1, 0, 0); (fofZ 1, ex_c2, 0, 0)] ++
  map (ex_node 1) (seq 0 20) ++ map (ex_node 2) (seq 0 20) ++
  spend_inputs P101 toyH ex_pk ex_s1 ++ spend_inputs P101 toyH ex_pk' ex_s2.
Definition eqb4 (x y : P101 * P101 * P101 * P101) : bool :=
  let '(a, b, c, d) := x in let '(a', b', c', d') := y in feqb a a' && feqb b b' && feqb c c' && feqb d d'.
Definition ex_check : bool :=
  let hs := map (fun x => (x, H4 P101 toyH x)) ex_met in
  forallb (fun x => negb (feqb (snd x) 0) && forallb (fun y => if feqb (snd x) (snd y) then eqb4 (fst x) (fst y) else true) hs) hs.
Lemma eqb4_ok x y : eqb4 x y = true -> x = y.
Proof.
  destruct x as [[[a b] c] d], y as [[[a' b'] c'] d']. unfold eqb4. rewrite !andb_true_iff. intros [[[E1 E2] E3] E4].
  destruct (feqb_spec a a'), (feqb_spec b b'), (feqb_spec c c'), (feqb_spec d d'); congruence.
Qed.
Lemma ex_checked : ex_check = true.
Proof. vm_compute. reflexivity. Qed.
Lemma ex_commitments : commitments P101 toyH ex_history = [ex_c1; ex_c2].
Proof. reflexivity. Qed.
Lemma ex_spends : spends ex_history =
  [(ex_pk, (fofZ 5, fofZ 6), ledger_root P101 toyH [ex_c1], ex_s1); (ex_pk', (fofZ 8, fofZ 9), ledger_root P101 toyH [ex_c1; ex_c2], ex_s2)].
Proof. reflexivity. Qed.
Lemma ex_met_all x : met P101 toyH ex_history x -> In x ex_met.
Proof.
  unfold ex_met. rewrite !in_app_iff. intros [o y Io Iy|i com E|k h j past t Lh Lj|pk sk r s y Is Iy].
  - left. apply in_flat_map. exists o. split; [exact Io|exact Iy].
  - right. left. rewrite ex_commitments in E. destruct i as [|[|i]]; [injection E as <-; now left|injection E as <-; right; now left|].
    cbn in E. now destruct i.
  - assert (X : exists k', (k' = 1 \/ k' = 2)%nat /\ past = leaves P101 toyH (firstn k' [ex_c1; ex_c2]) /\ j = 0%N).
    { unfold past in *. rewrite ex_commitments in *. rewrite leaves_length in Lj.
      assert (P : (3 <= 3 ^ N.of_nat (S h))%N).
      { rewrite Nat2N.inj_succ, N.pow_succ_r'. pose proof (N.pow_nonzero 3 (N.of_nat h) ltac:(lia)). lia. }
      destruct k as [|[|k]]; cbn [firstn length] in *.
      - lia.
      - exists 1%nat. split; [now left|]. split; [reflexivity|]. nia.
      - rewrite firstn_nil in *. exists 2%nat. split; [now right|]. split; [reflexivity|]. cbn [length] in Lj. nia. }
    destruct X as (k' & K & Ep & ->). unfold t. rewrite Ep. change (3 * 0)%N with 0%N. change (0 + 1)%N with 1%N. change (0 + 2)%N with 2%N.
    right. right. destruct K as [-> | ->]; [left|right; left]; apply in_map_iff; exists h; (split; [reflexivity|apply in_seq; lia]).
  - do 4 right. rewrite ex_spends in Is. destruct Is as [E|[E|[]]]; apply pair_equal_spec in E as [E <-];
      apply (f_equal (fun z => fst (fst z))) in E; cbn [fst] in E; rewrite <- E in Iy; [left|right]; exact Iy.
Qed.
Lemma ex_in1 : in_tree P101 toyH ex_pk (ledger_root P101 toyH [ex_c1]) ex_s1.
Proof. vm_compute. reflexivity. Qed.
Lemma ex_in2 : in_tree P101 toyH ex_pk' (ledger_root P101 toyH [ex_c1; ex_c2]) ex_s2.
Proof. vm_compute. reflexivity. Qed.
Example C70_history_case :
  admitted P101 toyH 0 ex_history /\ one_secret ex_history /\ ~ hash_broken P101 toyH ex_history /\
  shielded 0 ex_history = 10%Z /\ unshielded 0 ex_history = 7%Z /\ fees P101 0 0 ex_history = 3%Z.
Proof.
  split; [split; [|split]|split; [|split]].
  - constructor; [vm_compute; reflexivity|]. constructor; [|constructor; [|constructor]].
    2: { split; [exact ex_in2|vm_compute; reflexivity]. }
    split; [split; (constructor; [|constructor])|split]; [split; [exact ex_in1|]| | |]; [vm_compute; reflexivity..|].
    intros t. cbn [spent created map ftotal ex_s1 ex_o2 sp_type sp_amount ou_type ou_amount].
    change (toZ (fofZ 10 : P101)) with 10%Z. change (toZ (fofZ 7 : P101)) with 7%Z. change (toZ (fofZ 3 : P101)) with 3%Z.
    destruct (f_dec t 0); reflexivity.
  - intros l1 e l2 pk0 sk0 r0 s0 El I. unfold ex_history in El.
    destruct l1 as [|a l1]; cbn [app] in El; injection El as <- El; [destruct I|].
    destruct l1 as [|b l1]; cbn [app] in El; injection El as <- El.
    + destruct I as [I|[]]. apply pair_equal_spec in I as [I <-]. apply pair_equal_spec in I as [_ <-]. split; [reflexivity|]. exists 1%nat. reflexivity.
    + destruct l1 as [|c l1]; cbn [app] in El; injection El as <- El; [|now destruct l1].
      destruct I as [I|[]]. apply pair_equal_spec in I as [I <-]. apply pair_equal_spec in I as [_ <-]. split; [reflexivity|]. exists 2%nat. reflexivity.
  - unfold fresh_nullifiers. cbn [spends flat_map takes app map published ex_history]. constructor; [intros [E|[]]; vm_compute in E; discriminate E|]. constructor; [intros []|constructor].
  - intros pk sk sk' r r' s s' I I'. rewrite ex_spends in I, I'.
    assert (N : ex_pk <> ex_pk') by (intros N; apply (f_equal (fun z => toZ (fst (fst z)))) in N; discriminate N).
    destruct I as [I|[I|[]]], I' as [I'|[I'|[]]]; apply pair_equal_spec in I as [I _]; apply pair_equal_spec in I as [I _]; apply pair_equal_spec in I as [I1 I2];
      apply pair_equal_spec in I' as [I' _]; apply pair_equal_spec in I' as [I' _]; apply pair_equal_spec in I' as [I1' I2']; congruence.
  - pose proof ex_checked as C. unfold ex_check in C. rewrite forallb_forall in C.
    assert (G : forall x, In x ex_met -> H4 P101 toyH x <> 0 /\ forall y, In y ex_met -> H4 P101 toyH x = H4 P101 toyH y -> x = y).
    { intros x I. specialize (C (x, H4 P101 toyH x) (in_map _ _ _ I)). cbn [fst snd] in C. apply andb_true_iff in C as [C1 C2]. split.
      - intros E. rewrite E in C1. destruct (feqb_spec (0 : P101) 0); [discriminate C1|contradiction].
      - intros y J E. rewrite forallb_forall in C2. specialize (C2 (y, H4 P101 toyH y) (in_map _ _ _ J)). cbn [fst snd] in C2.
        rewrite E in C2. destruct (feqb_spec (H4 P101 toyH y) (H4 P101 toyH y)); [now apply eqb4_ok|contradiction]. }
    intros [(x & y & Mx & My & D & E)|(x & Mx & E)].
    + apply D. exact (proj2 (G x (ex_met_all x Mx)) y (ex_met_all y My) E).
    + exact (proj1 (G x (ex_met_all x Mx)) E).
  - vm_compute. repeat split.
Qed.
