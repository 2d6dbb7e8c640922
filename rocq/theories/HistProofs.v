(** Proofs about histories of anonymous operations. *)
From Coq Require Import List ZArith NArith Bool Lia Permutation.
From Verif Require Import Base Field PField MixSpec AxfrSpec MerkleSpec MerkleProofs HistSpec.
Import ListNotations.
Local Open Scope F_scope.

(** ** The tree *)
Section Tree.
Context {F : PField} (H : F -> F -> F -> F -> F).
Notation T := (subtree 0 (H3 F H)).
Definition dig (s : step F) : N := match fst (fst s) with SLeft => 0 | SMiddle => 1 | SRight => 2 end%N.
Definition pos (p : list (step F)) : N := position (map dig p).
Lemma dig_lt s : (dig s < 3)%N. Proof. unfold dig. now destruct (fst (fst s)). Qed.

Lemma t_empty ls h i : (N.of_nat (length ls) <= i * 3 ^ N.of_nat h)%N -> T ls h i = 0.
Proof. intros E. destruct h; cbn [subtree]; now rewrite (proj2 (N.leb_le _ _) E). Qed.
Lemma t_node ls h j : (j * 3 ^ N.of_nat (S h) < N.of_nat (length ls))%N -> T ls (S h) j = H (T ls h (3 * j)%N) (T ls h (3 * j + 1)%N) (T ls h (3 * j + 2)%N) 0.
Proof. intros E. cbn [subtree]. now rewrite (proj2 (N.leb_gt _ _) E). Qed.

Lemma in4_dec (x y : F * F * F * F) : {x = y} + {x <> y}.
Proof.
  destruct x as [[[a b] c] d], y as [[[a' b'] c'] d']. destruct (f_dec a a') as [->|]; [|right; congruence]. destruct (f_dec b b') as [->|]; [|right; congruence].
  destruct (f_dec c c') as [->|]; [|right; congruence]. destruct (f_dec d d') as [->|]; [now left|right; congruence].
Qed.
Lemma parent_input (x : F) s : parent F H x s = H4 F H (step_input F x s).
Proof. destruct s as [[[| |] a] b]; reflexivity. Qed.

(** The inputs hashed along a path that starts at height 0 with the value [x]. *)
Fixpoint climbed (x : F) (p : list (step F)) : list (F * F * F * F) :=
  match p with [] => [] | s :: p => step_input F x s :: climbed (parent F H x s) p end.

Lemma path_down ls p : forall h j x, fold_left (parent F H) p x = T ls (h + length p) j ->
  x = T ls h (pos p + j * 3 ^ N.of_nat (length p))%N \/
  (exists a h' j', In a (climbed x p) /\ (h' < h + length p)%nat /\ (j' * 3 ^ N.of_nat (S h') < N.of_nat (length ls))%N /\ let b := (T ls h' (3 * j')%N, T ls h' (3 * j' + 1)%N, T ls h' (3 * j' + 2)%N, 0) in collide F H (a, b)) \/
  (exists a, In a (climbed x p) /\ H4 F H a = 0).
Proof.
  induction p as [|s p IH]; intros h j x E.
  - left. cbn in *. rewrite Nat.add_0_r in E. now rewrite N.mul_1_r.
  - cbn [fold_left length climbed] in *. replace (h + S (length p))%nat with (S h + length p)%nat in E by lia.
    destruct (IH (S h) j _ E) as [Q|[(a & h' & j' & I & Lh & Lj & C)|(a & I & C)]].
    + set (i := (pos p + j * 3 ^ N.of_nat (length p))%N) in *.
      assert (Ei : (pos (s :: p) + j * 3 ^ N.of_nat (S (length p)) = dig s + 3 * i)%N).
      { unfold i, pos. cbn [map position]. rewrite Nat2N.inj_succ, N.pow_succ_r'. lia. }
      rewrite Ei. rewrite parent_input in Q.
      destruct (N.le_gt_cases (N.of_nat (length ls)) (i * 3 ^ N.of_nat (S h))) as [Em|Ne].
      * right. right. exists (step_input F x s). split; [now left|]. rewrite Q. now apply t_empty.
      * rewrite (t_node _ _ _ Ne) in Q. destruct (in4_dec (step_input F x s) (T ls h (3 * i)%N, T ls h (3 * i + 1)%N, T ls h (3 * i + 2)%N, 0)) as [D|D].
        -- left. destruct s as [[[| |] a] b]; cbn [dig fst snd step_input] in *; injection D as D1 D2 D3.
           ++ replace (0 + 3 * i)%N with (3 * i)%N by lia. exact D1.
           ++ replace (1 + 3 * i)%N with (3 * i + 1)%N by lia. exact D2.
           ++ replace (2 + 3 * i)%N with (3 * i + 2)%N by lia. exact D3.
        -- right. left. exists (step_input F x s), h, i. split; [now left|]. split; [lia|]. split; [exact Ne|]. split; [exact D|exact Q].
    + right. left. exists a, h', j'. split; [now right|]. split; [lia|]. split; [exact Lj|exact C].
    + right. right. exists a. split; [now right|exact C].
Qed.
Lemma pos_lt p : (pos p < 3 ^ N.of_nat (length p))%N.
Proof.
  unfold pos. induction p as [|s p IH]; [cbn; lia|]. cbn [map position length]. rewrite Nat2N.inj_succ, N.pow_succ_r'. pose proof (dig_lt s). lia.
Qed.
Lemma climbed_in x p : forall y, In y (climbed (H4 F H x) p) -> In y (path_inputs F H x p).
Proof.
  revert x. induction p as [|s p IH]; intros x y I; [destruct I|]. cbn [climbed path_inputs] in *. right. destruct I as [<-|I].
  - clear. destruct p; now left.
  - apply IH. rewrite parent_input in I. exact I.
Qed.
End Tree.

(** ** Lists *)
Lemma pick_apart {A} (d : A) l idx : NoDup idx -> (forall i, In i idx -> (i < length l)%nat) ->
  exists rest, Permutation l (map (fun i => nth i l d) idx ++ rest).
Proof.
  intros ND B. exists (map (fun i => nth i l d) (filter (fun i => negb (existsb (Nat.eqb i) idx)) (seq 0 (length l)))).
  rewrite <- map_app. assert (E : l = map (fun i => nth i l d) (seq 0 (length l))).
  { clear. induction l as [|a l IH]; [reflexivity|]. cbn [length seq map nth]. f_equal. rewrite <- seq_shift, map_map. exact IH. }
  rewrite E at 1. apply Permutation_map.
  assert (X : forall i, existsb (Nat.eqb i) idx = true <-> In i idx).
  { intros i. rewrite existsb_exists. split; [intros (y & I & Y); apply Nat.eqb_eq in Y; now subst|intros I; exists i; split; [exact I|apply Nat.eqb_refl]]. }
  apply NoDup_Permutation; [apply seq_NoDup| |].
  - clear E. induction idx as [|i idx IH].
    + cbn [app]. apply NoDup_filter, seq_NoDup.
    + inversion ND; subst. cbn [app]. constructor.
      * intros I. apply in_app_iff in I as [I|I]; [now apply H1|]. apply filter_In in I as [_ I]. cbn [existsb] in I. now rewrite Nat.eqb_refl in I.
      * assert (Y : forall i0, existsb (Nat.eqb i0) idx = true <-> In i0 idx).
        { intros i0. rewrite existsb_exists. split; [intros (y & I & Y); apply Nat.eqb_eq in Y; now subst|intros I; exists i0; split; [exact I|apply Nat.eqb_refl]]. }
        specialize (IH H2 (fun i0 I => B i0 (or_intror I)) Y).
        assert (G : forall ys, NoDup (idx ++ filter (fun i0 => negb (existsb (Nat.eqb i0) idx)) ys) -> NoDup (idx ++ filter (fun i0 => negb (existsb (Nat.eqb i0) (i :: idx))) ys)).
        { clear. intros ys. assert (E : filter (fun i0 => negb (existsb (Nat.eqb i0) (i :: idx))) ys = filter (fun i0 => negb (Nat.eqb i0 i)) (filter (fun i0 => negb (existsb (Nat.eqb i0) idx)) ys)).
          { induction ys as [|y ys IH]; [reflexivity|]. cbn [filter]. cbn [existsb] in *. rewrite negb_orb. destruct (existsb (Nat.eqb y) idx); cbn [negb filter]; destruct (Nat.eqb y i); cbn [negb andb]; rewrite IH; reflexivity. }
          rewrite E. generalize (filter (fun i0 => negb (existsb (Nat.eqb i0) idx)) ys). clear. intros zs.
          induction idx as [|j idx IH]; cbn [app]; [apply NoDup_filter|]. intros N. inversion N; subst. constructor; [|now apply IH].
          intros I. apply H1. apply in_app_iff in I as [I|I]; apply in_app_iff; [now left|]. apply filter_In in I. now right. }
        exact (G _ IH).
  - intros i. rewrite in_app_iff, filter_In, !in_seq. split.
    + intros L. destruct (existsb (Nat.eqb i) idx) eqn:Q; [left; now apply X|right; now split].
    + intros [I|[I _]]; [specialize (B _ I); lia|exact I].
Qed.

(** ** Histories *)
Section Hist.
Context {F : PField} (H : F -> F -> F -> F -> F) (ft : F).
Notation T := (subtree 0 (H3 F H)).
Notation event := (event F).
Notation sp4 := ((F * F * F) * (F * F) * F * spend F)%type.

Lemma leaves_length (os : list F) : length (leaves F H os) = length os.
Proof. unfold leaves. now rewrite map_length, combine_length, seq_length, Nat.min_id. Qed.
Lemma leaves_at (os : list F) i o : nth_error os i = Some o -> nth_error (leaves F H os) i = Some (leaf F H i o).
Proof.
  unfold leaves. intros E. assert (G : forall k, nth_error (map (fun p => leaf F H (fst p) (snd p)) (combine (seq k (length os)) os)) i = Some (leaf F H (k + i) o)).
  { clear -E. revert i E. induction os as [|a os IH]; intros [|i] E k; try discriminate; cbn [nth_error length seq combine map fst snd] in *.
    - injection E as ->. now rewrite Nat.add_0_r.
    - rewrite (IH i E (S k)). do 2 f_equal. lia. }
  exact (G 0%nat).
Qed.
Lemma t_leaf ls i x : nth_error ls (N.to_nat i) = Some x -> T ls 0 i = x.
Proof.
  intros E. assert (L : (N.to_nat i < length ls)%nat) by (apply nth_error_Some; congruence).
  cbn [subtree]. destruct (N.leb_spec (N.of_nat (length ls)) (i * 3 ^ N.of_nat 0)); [cbn in *; lia|].
  now apply nth_error_nth.
Qed.

Lemma root_high os : ledger_root F H os = T (leaves F H os) 20 0.
Proof. reflexivity. Qed.

(** [x] spends the record number [i] of [os]. *)
Definition spends_at (os : list (output F)) (x : sp4) (i : nat) : Prop :=
  exists o, nth_error os i = Some o /\ content_of o = content_spent x /\ sp_uid (snd x) = fofZ (Z.of_nat i).

Section Fixed.
Context (l : list event).
Notation broken := (hash_broken F H l).
Lemma same_input x y : met F H l x -> met F H l y -> H4 F H x = H4 F H y -> x = y \/ broken.
Proof. intros Mx My E. destruct (in4_dec x y) as [->|D]; [now left|]. right. left. exists x, y. split; [exact Mx|]. split; [exact My|]. now split. Qed.

Lemma same_com pk sk r s o : In (pk, sk, r, s) (spends l) -> In o (records l) -> spend_com F H pk s = output_com F H o ->
  content_of o = content_spent (pk, sk, r, s) \/ broken.
Proof.
  intros Is Io E. destruct o as [oa ot ob [[q0 q1] q2]], pk as [[p0 p1] p2].
  assert (M1 : forall x, In x (com_inputs F H (p0, p1, p2) (sp_blind s) (sp_amount s) (sp_type s)) -> met F H l x).
  { intros x I. eapply met_spend; [exact Is|]. unfold spend_inputs. apply in_app_iff. now left. }
  assert (M2 : forall x, In x (com_inputs F H (q0, q1, q2) ob oa ot) -> met F H l x) by (intros x I; eapply met_com; [exact Io|exact I]).
  cbn [com_inputs] in M1, M2. unfold spend_com, output_com in E. cbn [commitment ou_pk ou_blind ou_amount ou_type] in E.
  destruct (same_input _ _ (M1 _ (or_intror (or_introl eq_refl))) (M2 _ (or_intror (or_introl eq_refl))) E) as [D|B]; [|now right].
  injection D as D1 -> ->.
  destruct (same_input _ _ (M1 _ (or_introl eq_refl)) (M2 _ (or_introl eq_refl)) D1) as [D|B]; [|now right].
  injection D as _ Ea Et ->. left. unfold content_of, content_spent. cbn [ou_pk ou_type ou_amount]. now rewrite Ea, Et.
Qed.

Lemma spends_earlier l1 e l2 x : l = l1 ++ e :: l2 -> Forall (sound_event F H ft) l -> known_roots F H l -> In x (takes e) ->
  (exists i, (i < length (records l1))%nat /\ spends_at (records l) x i) \/ broken.
Proof.
  intros El Hs Hk Ix. destruct x as [[[pk sk] r] s].
  assert (Is : In (pk, sk, r, s) (spends l)).
  { rewrite El. unfold spends. rewrite flat_map_app. apply in_app_iff. right. cbn [flat_map]. apply in_app_iff. now left. }
  destruct (Hk _ _ _ _ _ _ _ El Ix) as (L20 & k & Er).
  assert (HT : in_tree F H pk r s).
  { assert (He : sound_event F H ft e) by (rewrite Forall_forall in Hs; apply Hs; rewrite El; apply in_elt).
    destruct e as [o|pk' sk' root ins outs fee|pk' sk' root s']; cbn [takes In] in Ix.
    - destruct Ix.
    - apply in_map_iff in Ix as (s' & E & I). injection E as -> -> -> ->. destruct He as [[He _] _]. rewrite Forall_forall in He. exact (proj1 (He _ I)).
    - destruct Ix as [E|[]]. injection E as -> -> -> ->. exact (proj1 He). }
  set (k' := Nat.min k (length (commitments F H l1))).
  assert (Ll : length (commitments F H l1) = length (records l1)) by apply map_length.
  assert (Ek : firstn k (commitments F H l1) = firstn k' (commitments F H l)).
  { rewrite El. unfold commitments at 2. unfold records, k'. rewrite flat_map_app, map_app, firstn_app. fold (records l1). fold (commitments F H l1).
    replace (Nat.min k (length (commitments F H l1)) - length (commitments F H l1))%nat with 0%nat by lia.
    cbn [firstn]. rewrite app_nil_r. destruct (Nat.le_ge_cases k (length (commitments F H l1))) as [Q|Q]; [now rewrite Nat.min_l|].
    rewrite Nat.min_r by exact Q. now rewrite firstn_all, firstn_all2. }
  rewrite Ek in Er. unfold in_tree, root_of in HT. rewrite Er, root_high, <- L20 in HT. clear Er.
  set (ls := leaves F H (firstn k' (commitments F H l))) in *.
  assert (Mp : forall a, In a (climbed H (H4 F H (sp_uid s, spend_com F H pk s, 0, 0)) (sp_path s)) -> met F H l a).
  { intros a I. eapply met_spend; [exact Is|]. unfold spend_inputs. apply in_app_iff. right. now apply climbed_in. }
  assert (Ml : met F H l (sp_uid s, spend_com F H pk s, 0, 0)).
  { eapply met_spend; [exact Is|]. unfold spend_inputs. apply in_app_iff. right. destruct (sp_path s); now left. }
  destruct (path_down H ls (sp_path s) 0 0 (H (sp_uid s) (spend_com F H pk s) 0 0)) as [Q|[(a & h' & j' & I & Lh & Lj & C)|(a & I & C)]].
  - exact HT.
  - rewrite N.mul_0_l, N.add_0_r in Q. set (p := pos (sp_path s)) in *.
    destruct (nth_error (firstn k' (commitments F H l)) (N.to_nat p)) as [com|] eqn:Eo.
    + rewrite (t_leaf ls p _ (leaves_at _ _ _ Eo)) in Q.
      assert (Lp : (N.to_nat p < length (records l1))%nat).
      { assert (X : (N.to_nat p < length (firstn k' (commitments F H l)))%nat) by (apply nth_error_Some; congruence). rewrite firstn_length in X. unfold k' in X. lia. }
      assert (Er' : nth_error (commitments F H l) (N.to_nat p) = Some com).
      { rewrite <- (firstn_skipn k' (commitments F H l)). rewrite nth_error_app1; [exact Eo|]. apply nth_error_Some. congruence. }
      destruct (same_input _ _ Ml (met_leaf F H l _ _ Er') Q) as [D|B]; [|now right].
      injection D as D1 D2. unfold commitments in Er'. rewrite nth_error_map in Er'. destruct (nth_error (records l) (N.to_nat p)) as [o|] eqn:Er2; [|discriminate].
      cbn [option_map] in Er'. injection Er' as <-. destruct (same_com pk sk r s o Is (nth_error_In _ _ Er2) D2) as [D|B]; [|now right].
      left. exists (N.to_nat p). split; [exact Lp|]. exists o. split; [exact Er2|]. split; [exact D|exact D1].
    + right. right. exists (sp_uid s, spend_com F H pk s, 0, 0). split; [exact Ml|]. cbn [H4]. rewrite Q. apply t_empty.
      apply nth_error_None in Eo. unfold ls. rewrite leaves_length. cbn. lia.
  - right. left. exists a, (T ls h' (3 * j')%N, T ls h' (3 * j' + 1)%N, T ls h' (3 * j' + 2)%N, 0).
    split; [apply Mp; exact I|]. split; [|exact C]. apply (met_node F H l k' h' j'); [rewrite L20 in Lh; exact Lh|exact Lj].
  - right. right. exists a. split; [apply Mp; exact I|exact C].
Qed.

Lemma spends_all : Forall (sound_event F H ft) l -> known_roots F H l ->
  (exists idx, Forall2 (spends_at (records l)) (spends l) idx) \/ broken.
Proof.
  intros Hs Hk. assert (A : forall x, In x (spends l) -> (exists i, spends_at (records l) x i) \/ broken).
  { intros x I. unfold spends in I. apply in_flat_map in I as (e & Ie & Ix). apply in_split in Ie as (l1 & l2 & El).
    destruct (spends_earlier _ _ _ _ El Hs Hk Ix) as [(i & _ & M)|B]; [left; now exists i|now right]. }
  revert A. generalize (spends l). intros xs. induction xs as [|x xs IH]; intros A.
  - left. exists []. constructor.
  - destruct (A x (or_introl eq_refl)) as [[i Mi]|B]; [|now right].
    destruct IH as [[idx M]|B]; [intros y I; apply A; now right| |now right]. left. exists (i :: idx). now constructor.
Qed.
Lemma published_same x y i : one_secret l -> In x (spends l) -> In y (spends l) -> spends_at (records l) x i -> spends_at (records l) y i -> published F H x = published F H y.
Proof.
  destruct x as [[[pk sk] r] s], y as [[[pk' sk'] r'] s']. intros O Ix Iy (o & Eo & Ec & Eu) (o' & Eo' & Ec' & Eu').
  assert (o' = o) by congruence. subst o'. rewrite Ec in Ec'. cbn [content_spent snd] in *. injection Ec' as <- Et Ea.
  assert (sk' = sk) by (symmetry; eapply O; eassumption). subst sk'.
  unfold published, nullifier. rewrite Eu, Eu', Et, Ea. reflexivity.
Qed.
Lemma distinct_at : one_secret l -> forall xs idx, incl xs (spends l) -> NoDup (map (published F H) xs) -> Forall2 (spends_at (records l)) xs idx -> NoDup idx.
Proof.
  intros O xs idx HI ND M. induction M as [|x i xs idx Mx M IH]; [constructor|]. cbn [map] in ND. inversion ND; subst. constructor.
  - intros I. assert (G : exists y, In y xs /\ spends_at (records l) y i).
    { clear -M I. induction M as [|y j xs idx My M IH]; [destruct I|]. destruct I as [->|I]; [exists y; split; [now left|exact My]|].
      destruct (IH I) as (z & Iz & Mz). exists z. split; [now right|exact Mz]. }
    destruct G as (y & Iy & My). apply H2. rewrite (published_same x y i O (HI _ (or_introl eq_refl)) (HI _ (or_intror Iy)) Mx My). now apply in_map.
  - apply IH; [|exact H3]. intros z Iz. apply HI. now right.
Qed.
Lemma left_over : admitted F H ft l -> one_secret l ->
  (exists left, Permutation (map content_of (records l)) (map content_spent (spends l) ++ map content_of left)) \/ broken.
Proof.
  intros (Hs & Hk & Hn) O. destruct (spends_all Hs Hk) as [[idx M]|B]; [|now right]. left.
  pose proof (distinct_at O _ _ (fun x I => I) Hn M) as ND.
  pose (d := mkOutput (0 : F) 0 0 (0, 0, 0)).
  destruct (pick_apart d (records l) idx ND) as [left P].
  { clear -M. induction M as [|x i xs idx (o & E & _) M IH]; intros j I; [destruct I|]. destruct I as [<-|I]; [apply nth_error_Some; congruence|now apply IH]. }
  exists left. rewrite (Permutation_map content_of P), map_app. apply Permutation_app_tail.
  assert (E : map content_of (map (fun i => nth i (records l) d) idx) = map content_spent (spends l)); [|now rewrite E].
  clear -M. induction M as [|x i xs idx (o & E & C & _) M IH]; [reflexivity|]. cbn [map]. rewrite IH. f_equal. rewrite (nth_error_nth _ _ d E). exact C.
Qed.
End Fixed.

(** ** Totals *)
Lemma ftotal_app (t : F) a b : ftotal t (a ++ b) = (ftotal t a + ftotal t b)%Z.
Proof. clear H ft. induction a as [|[t' v] a IH]; cbn [app ftotal]; [lia|]. rewrite IH. lia. Qed.
Lemma ftotal_perm (t : F) a b : Permutation a b -> ftotal t a = ftotal t b.
Proof. clear H ft. induction 1 as [|[? ?] ? ? ? IH|[? ?] [? ?] ?|? ? ? ? IH1 ? IH2]; cbn [ftotal]; lia. Qed.
Lemma ftotal_nonneg (t : F) a : (0 <= ftotal t a)%Z.
Proof. clear H ft. induction a as [|[t' v] a IH]; cbn [ftotal]; [lia|]. pose proof (toZ_range F v). destruct (f_dec t t'); lia. Qed.
Lemma totals (t : F) l : Forall (sound_event F H ft) l ->
  (shielded t l + ftotal t (map (fun c => (snd (fst c), snd c)) (map content_spent (spends l))) =
   ftotal t (map (fun c => (snd (fst c), snd c)) (map content_of (records l))) + unshielded t l + fees F ft t l)%Z.
Proof.
  induction 1 as [|e l He Hl IH]; [reflexivity|].
  unfold shielded, unshielded, fees, spends, records, zsum in *. cbn [map flat_map fold_right]. rewrite !map_app, !ftotal_app.
  cbn [ftotal] in IH |- *. destruct e as [o|pk sk root ins outs fee|pk sk root s]; cbn [makes takes map ftotal content_of content_spent fst snd].
  - lia.
  - destruct He as (_ & _ & C). specialize (C t). unfold spent, created in C.
    rewrite (map_map (fun s => (pk, sk, root, s)) content_spent), (map_map _ (fun c => (snd (fst c), snd c)) ins), (map_map _ (fun c => (snd (fst c), snd c)) outs).
    cbn [content_spent content_of fst snd]. lia.
  - lia.
Qed.
End Hist.
