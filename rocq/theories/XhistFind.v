(** Histories of transfers: what an accepted transfer gives, as openings of its records. *)
From Coq Require Import List NArith ZArith Bool Permutation Lia Field Ring.
From Verif Require Import Base Field UtilsModel XfrModel XfrSpec XfrProofs XhistSpec XhistCore.
Import ListNotations.
Local Open Scope Z_scope.

Section Whole.
Context (E : pgroup).
Add Field PFw : (f_th (PF E)).
(** Openings of limbs and openings of wholes. *)
Lemma whole_opens a o : opens a o -> opens_whole E a (whole E o).
Proof.
  unfold opens, opens_whole, whole. destruct a as [lo hi|x].
  - intros [H1 H2]. exists (pedersen E (op_lo o) (op_rlo o)), (pedersen E (op_hi o) (op_rhi o)).
    split; [exact H1|]. split; [exact H2|]. cbn [fst snd]. rewrite pedersen_scale, pedersen_add. reflexivity.
  - intros [H1 [H2 [H3 H4]]]. unfold op_value, blind_value. rewrite H1, H2, H3, H4. f_equal; [|ring].
    pose proof (Z.div_mod (Z.of_N x) (2 ^ 32) ltac:(lia)). lia.
Qed.
Lemma commit_pedersen (n : N) r : commit E (fofN n) r = pedersen E (Z.of_N n) r.
Proof. reflexivity. Qed.
Lemma whole_limbs a o lh : opens_whole E a o -> limb_commitments E a = Ok lh ->
  madd (fst lh) (smul (pow2_32 E) (snd lh)) = pedersen E (fst o) (snd o).
Proof.
  unfold opens_whole, limb_commitments. destruct a as [lo hi|x].
  - intros [l [h [H1 [H2 H3]]]]. rewrite H1, H2. cbn. intros H. injection H as <-. exact H3.
  - intros -> . rewrite u64_pair_spec. intros H. injection H as <-. cbn [fst snd].
    change (pow2_32 E) with (fofZ (F := PF E) (2 ^ 32)).
    rewrite !commit_pedersen, pedersen_scale, pedersen_add. f_equal; [|ring]. rewrite N2Z.inj_mod, N2Z.inj_div. change (Z.of_N (2 ^ 32)) with (2 ^ 32).
    pose proof (Z.div_mod (Z.of_N x) (2 ^ 32) ltac:(lia)). lia.
Qed.
End Whole.

Section Positions.
Context (E : pgroup) (O : oracles E).
Lemma F2_nth {A B} (R : A -> B -> Prop) l m i a d : Forall2 R l m -> nth_error l i = Some a -> R a (nth i m d).
Proof. intros H. revert i. induction H as [|x y l m Hxy H IH]; intros [|i] Hi; cbn in *; try discriminate; [now injection Hi as ->|auto]. Qed.
Lemma F2_nth' {A B} (R : A -> B -> Prop) l m i a : Forall2 R l m -> nth_error l i = Some a -> exists b, nth_error m i = Some b /\ R a b.
Proof. intros H. revert i. induction H as [|x y l m Hxy H IH]; intros [|i] Hi; cbn in *; try discriminate; [injection Hi as ->; eauto|auto]. Qed.

Lemma flat_nth (co : list (PG E * PG E)) i c tl : nth_error co i = Some c ->
  nth_error (flat_map (fun c => [compress E (fst c); compress E (snd c)]) co ++ tl) (2 * i) = Some (compress E (fst c)) /\
  nth_error (flat_map (fun c => [compress E (fst c); compress E (snd c)]) co ++ tl) (2 * i + 1) = Some (compress E (snd c)).
Proof.
  revert i. induction co as [|x co IH]; intros [|i] Hi; try discriminate.
  - injection Hi as ->. split; reflexivity.
  - replace (2 * S i)%nat with (S (S (2 * i))) by lia. replace (S (S (2 * i)) + 1)%nat with (S (S (2 * i + 1))) by lia.
    cbn [flat_map app nth_error]. apply IH. exact Hi.
Qed.

Lemma range_positions ins outs p cs i r : extract_value_commitments E O ins outs p = Ok cs -> nth_error outs i = Some r ->
  exists c, limb_commitments E (b_amount r) = Ok c /\
    nth_error cs (2 * i) = Some (compress E (fst c)) /\ nth_error cs (2 * i + 1) = Some (compress E (snd c)).
Proof.
  intros Hx Hr. unfold extract_value_commitments in Hx.
  apply bind_ok in Hx. destruct Hx as [ci [Hci Hx]].
  apply bind_ok in Hx. destruct Hx as [co [Hco Hx]].
  apply bind_ok in Hx. destruct Hx as [pl [Hpl Hx]].
  apply bind_ok in Hx. destruct Hx as [ph [Hph Hx]].
  match type of Hx with (if ?x then _ else _) = _ => destruct x; [|discriminate] end.
  injection Hx as Hcs. apply mapM_ok in Hco. destruct (F2_nth' _ _ _ _ _ Hco Hr) as [c [Hc1 Hc2]].
  exists c. split; [exact Hc2|]. rewrite <- Hcs. unfold pad_to. rewrite <- app_assoc. apply flat_nth. exact Hc1.
Qed.

Lemma in_numbered {A} (l : list A) : forall s i r, In (i, r) (combine (seq s (length l)) l) -> (s <= i)%nat /\ nth_error l (i - s) = Some r.
Proof.
  induction l as [|a l IH]; intros s i r H; [destruct H|]. cbn in H. destruct H as [H|H].
  - injection H as -> ->. rewrite Nat.sub_diag. split; [lia|reflexivity].
  - destruct (IH (S s) i r H) as [A1 A2]. split; [lia|]. replace (i - s)%nat with (S (i - S s)) by lia. exact A2.
Qed.


End Positions.

Section Find.
Context (E : pgroup) (O : oracles E) (sc : N -> PF E).
Context (ext : RP E O -> list (CP E) -> list (Z * PF E)) (aext : AP E O -> list (PG E) -> PF E * list (PF E)) (mext : mix_ext E O).

Lemma ranges_of batch b p : range_extractor E O ext ->
  verify_bodies E O sc batch = Ok tt -> In b batch ->
  (x_proof E O b = ConfAmount E O p \/ exists ap, x_proof E O b = ConfAll E O p ap) ->
  exists cs, extract_value_commitments E O (x_in E O b) (x_out E O b) p = Ok cs /\
    Forall2 (fun c vr => decompress E c = Some (pedersen E (fst vr) (snd vr)) /\ 0 <= fst vr < 2 ^ 32) cs (ext (xrp E O p) cs).
Proof.
  intros Hext Hv Hb Hp. apply verify_bodies_ok in Hv. destruct Hv as [_ [Hv _]].
  unfold batch_verify_confidential_amount in Hv. apply bind_ok in Hv. destruct Hv as [css [Hm Hv]].
  match type of Hv with (if ?x then _ else _) = _ => destruct x eqn:Hr; [|discriminate] end.
  apply mapM_ok in Hm.
  assert (Hw : In (x_in E O b, x_out E O b, p) (flat_map (amount_work E O) batch)).
  { apply in_flat_map. exists b. split; [assumption|]. unfold amount_work. destruct Hp as [Hp|[ap Hp]]; rewrite Hp; now left. }
  assert (Hin : exists cs, extract_value_commitments E O (x_in E O b) (x_out E O b) p = Ok cs /\
      In (xrp E O p, cs) (combine (map (fun '(_, _, p) => xrp E O p) (flat_map (amount_work E O) batch)) css)).
  { clear -Hm Hw. revert Hw. induction Hm as [|[[i o] p'] cs l css Hc Hm IH]; intros Hw; [destruct Hw|].
    destruct Hw as [Hw|Hw].
    - injection Hw as -> -> ->. exists cs. split; [assumption|]. now left.
    - destruct (IH Hw) as [cs' [H1 H2]]. exists cs'. split; [assumption|]. now right. }
  destruct Hin as [cs [Hcs Hin]]. exists cs. split; [exact Hcs|]. exact (Hext _ Hr _ _ Hin).
Qed.

Lemma types_of batch b ap : asset_extractor E O aext ->
  verify_bodies E O sc batch = Ok tt -> In b batch ->
  (x_proof E O b = ConfAsset E O ap \/ exists p, x_proof E O b = ConfAll E O p ap) ->
  exists cs, mapM (fun r => type_commitment E sc (b_type r)) (x_in E O b ++ x_out E O b) = Ok cs /\
    Forall2 (fun c r => c = madd (smul (fst (aext ap cs)) (gB E)) (smul r (gBb E))) cs (snd (aext ap cs)).
Proof.
  intros Hext Hv Hb Hp. apply verify_bodies_ok in Hv. destruct Hv as [_ [_ [Hv _]]].
  unfold batch_verify_confidential_asset in Hv. apply bind_ok in Hv. destruct Hv as [css [Hm Hv]].
  destruct (v_assets E O css) eqn:Hr; [|discriminate]. apply mapM_ok in Hm.
  assert (Hw : In (x_in E O b, x_out E O b, ap) (flat_map (asset_work E O) batch)).
  { apply in_flat_map. exists b. split; [assumption|]. unfold asset_work. destruct Hp as [Hp|[q Hp]]; rewrite Hp; now left. }
  destruct (Forall2_in_l _ _ _ _ Hm Hw) as [[cs q'] [Hin Hc]].
  apply rmap_ok in Hc. destruct Hc as [cs' [Hc He]]. injection He as -> <-.
  exists cs. split; [exact Hc|]. exact (Hext _ Hr _ _ Hin).
Qed.

Lemma mixes_of q batch b p : mix_extractor E O q mext ->
  verify_bodies E O sc batch = Ok tt -> In b batch -> x_proof E O b = AssetMix E O p ->
  exists ci co, mapM (process_bar E sc) (x_in E O b) = Ok ci /\ mapM (process_bar E sc) (x_out E O b) = Ok co /\
    Forall2 (w_opens E q) ci (fst (mext p ci co)) /\ Forall2 (w_opens E q) co (snd (mext p ci co)) /\
    never_increases (map (w_view E) (fst (mext p ci co))) (map (w_view E) (snd (mext p ci co))).
Proof.
  intros Hext Hv Hb Hp. apply verify_bodies_ok in Hv. destruct Hv as [_ [_ [_ Hv]]].
  unfold batch_verify_asset_mix in Hv. apply bind_ok in Hv. destruct Hv as [css [Hm Hv]].
  destruct (v_mixes E O css) eqn:Hr; [|discriminate]. apply mapM_ok in Hm.
  assert (Hw : In (x_in E O b, x_out E O b, p) (flat_map (mix_work E O) batch)).
  { apply in_flat_map. exists b. split; [assumption|]. unfold mix_work. rewrite Hp. now left. }
  destruct (Forall2_in_l _ _ _ _ Hm Hw) as [[[ci co] p'] [Hin Hc]].
  apply bind_ok in Hc. destruct Hc as [ci' [H1 Hc]]. apply bind_ok in Hc. destruct Hc as [co' [H2 Hc]]. injection Hc as -> -> ->.
  exists ci, co. split; [exact H1|]. split; [exact H2|]. exact (Hext _ Hr _ _ _ Hin).
Qed.

End Find.
