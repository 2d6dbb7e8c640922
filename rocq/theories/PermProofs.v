(** Proofs about the permutation. *)
From Coq Require Import List Arith Bool Lia Permutation FinFun.
From Verif Require Import Base PermModel PermSpec.
Import ListNotations.

Section Upd.
Context {A : Type}.
Implicit Types l : list A.
Lemma upd_len i x l : length (upd i x l) = length l.
Proof. revert i; induction l as [|a l IH]; intros [|i]; cbn; auto. Qed.
Lemma upd_same i x l d : i < length l -> nth i (upd i x l) d = x.
Proof. revert i; induction l as [|a l IH]; intros [|i] H; cbn in *; try lia; [reflexivity|]. apply IH. lia. Qed.
Lemma upd_other i j x l d : i <> j -> nth j (upd i x l) d = nth j l d.
Proof. revert i j; induction l as [|a l IH]; intros [|i] [|j] H; cbn; try reflexivity; try lia. apply IH. lia. Qed.
End Upd.

Section Perm.
Context (v : list nat).
Let N := length v.
Let at_ i := nth i v 0.

(** [q] follows [p] cyclically among the positions with the same variable. *)
Definition is_next (p q : nat) : Prop :=
  q < N /\ at_ q = at_ p /\
  ((p < q /\ forall r, p < r < q -> at_ r <> at_ p) \/
   (q <= p /\ (forall r, r < q -> at_ r <> at_ p) /\ (forall r, p < r < N -> at_ r <> at_ p))).

Lemma chase_ok value : forall rest pos prev perm prev' perm' pre,
  v = pre ++ rest -> length pre = pos -> length perm = N -> prev < pos -> at_ prev = value ->
  (forall r, prev < r < pos -> at_ r <> value) ->
  chase value pos rest prev perm = (prev', perm') ->
  length perm' = N /\ prev <= prev' < N /\ at_ prev' = value /\ (forall r, prev' < r < N -> at_ r <> value) /\
  (forall p, p < prev \/ at_ p <> value -> nth p perm' 0 = nth p perm 0) /\
  (forall p, prev <= p < prev' -> at_ p = value -> p < nth p perm' 0 < N /\ at_ (nth p perm' 0) = value /\
     forall r, p < r < nth p perm' 0 -> at_ r <> value).
Proof.
  induction rest as [|x rest IH]; intros pos prev perm prev' perm' pre Ev Lp Ln Hp Ap G E; cbn [chase] in E.
  - inversion E; subst prev' perm'. assert (HN : N = pos) by (unfold N; rewrite Ev, app_nil_r; exact Lp).
    repeat split; auto; try lia. intros r Hr. apply G. lia.
  - assert (Ax : at_ pos = x) by (unfold at_; rewrite Ev, app_nth2 by lia; rewrite Lp, Nat.sub_diag; reflexivity).
    assert (HN : pos < N) by (unfold N; rewrite Ev, app_length; cbn; lia).
    assert (Ev' : v = (pre ++ [x]) ++ rest) by (rewrite <- app_assoc; exact Ev).
    assert (Lp' : length (pre ++ [x]) = S pos) by (rewrite app_length; cbn; lia).
    destruct (Nat.eqb_spec x value) as [Ex|Ex].
    + assert (G' : forall r, pos < r < S pos -> at_ r <> value) by (intros; lia).
      assert (Ap' : at_ pos = value) by congruence.
      assert (Lu : length (upd prev pos perm) = N) by (rewrite upd_len; exact Ln).
      destruct (IH (S pos) pos (upd prev pos perm) prev' perm' (pre ++ [x]) Ev' Lp' Lu (Nat.lt_succ_diag_r pos) Ap' G' E) as [R1 [R2 [R3 [R4 [R5 R6]]]]].
      repeat split; auto; try lia.
      * intros p Hp2. rewrite R5 by (destruct Hp2; [left; lia|right; assumption]). apply upd_other.
        intros ->. destruct Hp2; [lia|contradiction].
      * destruct (Nat.lt_ge_cases p pos) as [l|g]; [|apply R6; [lia|assumption]].
        assert (p = prev) by (destruct (Nat.eq_dec p prev); [assumption|exfalso; apply (G p); [lia|assumption]]). subst p.
        rewrite R5 by (left; lia). rewrite upd_same by lia. exact Hp.
      * destruct (Nat.lt_ge_cases p pos) as [l|g]; [|apply R6; [lia|assumption]].
        assert (p = prev) by (destruct (Nat.eq_dec p prev); [assumption|exfalso; apply (G p); [lia|assumption]]). subst p.
        rewrite R5 by (left; lia). rewrite upd_same by lia. lia.
      * destruct (Nat.lt_ge_cases p pos) as [l|g]; [|apply R6; [lia|assumption]].
        assert (p = prev) by (destruct (Nat.eq_dec p prev); [assumption|exfalso; apply (G p); [lia|assumption]]). subst p.
        rewrite R5 by (left; lia). rewrite upd_same by lia. exact Ap'.
      * destruct (Nat.lt_ge_cases p pos) as [l|g]; [|apply R6; [lia|assumption]].
        assert (p = prev) by (destruct (Nat.eq_dec p prev); [assumption|exfalso; apply (G p); [lia|assumption]]). subst p.
        rewrite R5 by (left; lia). rewrite upd_same by lia. exact G.
    + assert (G' : forall r, prev < r < S pos -> at_ r <> value).
      { intros r Hr. destruct (Nat.eq_dec r pos) as [->|]; [congruence|apply G; lia]. }
      exact (IH (S pos) prev perm prev' perm' (pre ++ [x]) Ev' Lp' Ln (Nat.lt_lt_succ_r _ _ Hp) Ap G' E).
Qed.

Lemma perm_loop_ok : forall rest i marked perm pre perm',
  v = pre ++ rest -> length pre = i -> length perm = N ->
  (forall x, nth x marked false = true <-> In x pre) ->
  (forall p, p < N -> In (at_ p) pre -> is_next p (nth p perm 0)) ->
  perm_loop i rest marked perm = Ok perm' ->
  length perm' = N /\ forall p, p < N -> is_next p (nth p perm' 0).
Proof.
  induction rest as [|value rest IH]; intros i marked perm pre perm' Ev Lp Ln M G E; cbn [perm_loop] in E.
  - apply Ok_inj in E. subst perm'. split; [exact Ln|]. intros p Hp. apply G; [exact Hp|].
    rewrite app_nil_r in Ev. rewrite <- Ev. apply nth_In. exact Hp.
  - assert (HN : i < N) by (unfold N; rewrite Ev, app_length; cbn; lia).
    assert (Ai : at_ i = value) by (unfold at_; rewrite Ev, app_nth2 by lia; rewrite Lp, Nat.sub_diag; reflexivity).
    assert (Ev' : v = (pre ++ [value]) ++ rest) by (rewrite <- app_assoc; exact Ev).
    assert (Lp' : length (pre ++ [value]) = S i) by (rewrite app_length; cbn; lia).
    destruct (nth_error marked value) as [[]|] eqn:Em; [| |discriminate].
    + apply (nth_error_nth _ _ false) in Em. apply M in Em.
      assert (I : forall x, In x (pre ++ [value]) <-> In x pre).
      { intros x. rewrite in_app_iff. cbn. split; [intros [H|[->|[]]]; assumption|tauto]. }
      apply (IH (S i) marked perm (pre ++ [value])); auto.
      * intros x. rewrite I. apply M.
      * intros p Hp Hi. apply G; [exact Hp|]. now apply I.
    + assert (Lm : value < length marked) by (apply nth_error_Some; congruence).
      assert (Nm : ~ In value pre). { intros H. apply M in H. apply (nth_error_nth _ _ false) in Em. congruence. }
      assert (Fr : forall r, r < i -> at_ r <> value).
      { intros r Hr H. apply Nm. rewrite <- H. unfold at_. rewrite Ev, app_nth1 by lia. apply nth_In. lia. }
      destruct (chase value (S i) rest i perm) as [prev perm1] eqn:Ec.
      destruct (chase_ok value rest (S i) i perm prev perm1 (pre ++ [value]) Ev' Lp' Ln ltac:(lia) Ai ltac:(intros; lia) Ec)
        as [R1 [R2 [R3 [R4 [R5 R6]]]]].
      apply (IH (S i) (upd value true marked) (upd prev i perm1) (pre ++ [value])); auto.
      * rewrite upd_len. exact R1.
      * intros x. rewrite in_app_iff. cbn. destruct (Nat.eq_dec value x) as [->|Hn].
        -- rewrite upd_same by exact Lm. tauto.
        -- rewrite upd_other by exact Hn. rewrite M. tauto.
      * intros p Hp Hi. destruct (Nat.eq_dec (at_ p) value) as [Hv|Hv].
        -- assert (ip : i <= p) by (destruct (Nat.lt_ge_cases p i); [exfalso; eapply Fr; eauto|assumption]).
           destruct (Nat.eq_dec p prev) as [->|Hne].
           ++ rewrite upd_same by lia. split; [exact HN|]. split; [congruence|]. right. rewrite Hv. repeat split; auto; lia.
           ++ rewrite upd_other by auto.
              assert (p < prev). { destruct (Nat.lt_ge_cases p prev); [assumption|exfalso; apply (R4 p); [lia|assumption]]. }
              destruct (R6 p ltac:(lia) Hv) as [Q1 [Q2 Q3]]. split; [lia|]. split; [congruence|]. left. rewrite Hv. split; [lia|exact Q3].
        -- rewrite upd_other by (intros ->; contradiction). rewrite R5 by (right; exact Hv).
           apply G; [exact Hp|]. apply in_app_iff in Hi. destruct Hi as [Hi|[Hi|[]]]; [exact Hi|congruence].
Qed.

Lemma perm_loop_total : forall rest i marked perm, (forall x, In x rest -> x < length marked) -> exists p, perm_loop i rest marked perm = Ok p.
Proof.
  induction rest as [|value rest IH]; intros i marked perm H; cbn [perm_loop]; [eauto|].
  destruct (nth_error marked value) as [[]|] eqn:E.
  - apply IH. intros x Hx. apply H. now right.
  - destruct (chase _ _ _ _ _). apply IH. intros x Hx. rewrite upd_len. apply H. now right.
  - exfalso. apply nth_error_None in E. pose proof (H value (or_introl eq_refl)). lia.
Qed.

Lemma compute_permutation_next num_vars p : compute_permutation num_vars v = Ok p ->
  length p = N /\ forall i, i < N -> is_next i (nth i p 0).
Proof.
  intros E. apply (perm_loop_ok v 0 (repeat false num_vars) (repeat 0 N) []); auto.
  - apply repeat_length.
  - intros x. split; [|intros []]. intros H. exfalso. destruct (Nat.lt_ge_cases x num_vars).
    + rewrite nth_repeat in H. discriminate.
    + rewrite nth_overflow in H by now rewrite repeat_length. discriminate.
  - intros p0 _ [].
Qed.

(** ** Consequences of [is_next] *)
Context (f : nat -> nat) (Hf : forall i, i < N -> is_next i (f i)).
Lemma next_lt i : i < N -> f i < N. Proof. intros H. apply (Hf i H). Qed.
Lemma next_same i : i < N -> at_ (f i) = at_ i. Proof. intros H. apply (Hf i H). Qed.
Lemma next_inj i j : i < N -> j < N -> f i = f j -> i = j.
Proof.
  intros Hi Hj E. destruct (Hf i Hi) as [A1 [A2 A3]], (Hf j Hj) as [B1 [B2 B3]]. rewrite <- E in B1, B2, B3.
  assert (S : at_ i = at_ j) by congruence.
  destruct (Nat.lt_trichotomy i j) as [l|[e|g]]; [exfalso|exact e|exfalso].
  - destruct A3 as [[A3 A4]|[A3 [A4 A5]]]; destruct B3 as [[B3 B4]|[B3 [B4 B5]]]; try lia.
    + apply (A4 j); [lia|congruence].
    + apply (B4 i); [lia|congruence].
    + apply (A5 j); [lia|congruence].
  - destruct A3 as [[A3 A4]|[A3 [A4 A5]]]; destruct B3 as [[B3 B4]|[B3 [B4 B5]]]; try lia.
    + apply (B4 i); [lia|congruence].
    + apply (A4 j); [lia|congruence].
    + apply (B5 i); [lia|congruence].
Qed.
Lemma next_perm : Permutation (map f (seq 0 N)) (seq 0 N).
Proof.
  apply NoDup_Permutation_bis.
  - assert (X : forall l, NoDup l -> (forall a, In a l -> a < N) -> NoDup (map f l)).
    { induction l as [|a l IH]; intros ND B; cbn; constructor.
      - intros H. apply in_map_iff in H. destruct H as [b [E I]]. apply next_inj in E; [|apply B; now right|apply B; now left].
        subst b. now inversion ND.
      - apply IH; [now inversion ND|]. intros; apply B; now right. }
    apply X; [apply seq_NoDup|]. intros a Ha. apply in_seq in Ha. lia.
  - now rewrite map_length.
  - intros x Hx. apply in_map_iff in Hx. destruct Hx as [y [<- Hy]]. apply in_seq in Hy. apply in_seq. pose proof (next_lt y). lia.
Qed.
Lemma next_surj j : j < N -> exists i, i < N /\ f i = j.
Proof.
  intros H. assert (I : In j (map f (seq 0 N))).
  { eapply Permutation_in; [apply Permutation_sym, next_perm|]. apply in_seq. lia. }
  apply in_map_iff in I. destruct I as [i [E I]]. exists i. split; [apply in_seq in I; lia|exact E].
Qed.
Lemma iter_add a b i : Nat.iter (b + a) f i = Nat.iter b f (Nat.iter a f i).
Proof. induction b as [|b IH]; [reflexivity|]. change (f (Nat.iter (b + a) f i) = f (Nat.iter b f (Nat.iter a f i))). now rewrite IH. Qed.
Lemma cycle_trans i j l : on_cycle f i j -> on_cycle f j l -> on_cycle f i l.
Proof. intros [a A] [b B]. exists (b + a). rewrite <- B, <- A. apply iter_add. Qed.
Lemma cycle_forward d : forall p q, q - p = d -> p <= q -> q < N -> at_ q = at_ p -> on_cycle f p q.
Proof.
  induction d as [d IH] using lt_wf_ind. intros p q D L Hq E.
  destruct (Nat.eq_dec p q) as [->|Hn]; [exists 0; reflexivity|].
  destruct (Hf p ltac:(lia)) as [A1 [A2 A3]].
  assert (F1 : p < f p <= q).
  { destruct A3 as [[A3 A4]|[A3 [A4 A5]]].
    - split; [exact A3|]. destruct (Nat.lt_ge_cases q (f p)); [exfalso; apply (A4 q); [lia|assumption]|assumption].
    - exfalso. apply (A5 q); [lia|assumption]. }
  apply (cycle_trans p (f p) q); [exists 1; reflexivity|].
  apply (IH (q - f p)); lia.
Qed.
(** The last position after [p] with the variable of [p]. *)
Lemma last_occ x : forall n, (exists r, r < n /\ at_ r = x) -> exists r, r < n /\ at_ r = x /\ forall q, r < q < n -> at_ q <> x.
Proof.
  induction n as [|n IH]; intros [r [Hr E]]; [lia|].
  destruct (Nat.eq_dec (at_ n) x) as [En|En].
  - exists n. repeat split; auto. intros q Hq. lia.
  - destruct IH as [r' [H1 [H2 H3]]]; [exists r; split; [|exact E]; destruct (Nat.eq_dec r n); [subst; contradiction|lia]|].
    exists r'. repeat split; auto. intros q Hq. destruct (Nat.eq_dec q n) as [->|]; [exact En|apply H3; lia].
Qed.
Lemma cycle_iff p q : p < N -> q < N -> on_cycle f p q <-> at_ p = at_ q.
Proof.
  intros Hp Hq. split.
  - intros [k <-]. clear Hq. assert (X : Nat.iter k f p < N /\ at_ (Nat.iter k f p) = at_ p).
    { induction k as [|k [IH1 IH2]]; cbn; [auto|]. split; [now apply next_lt|]. now rewrite next_same. }
    symmetry. apply X.
  - intros E. destruct (last_occ (at_ p) N) as [z [Z1 [Z2 Z3]]]; [exists p; auto|].
    assert (zp : p <= z). { destruct (Nat.lt_ge_cases z p); [exfalso; apply (Z3 p); [lia|reflexivity]|assumption]. }
    apply (cycle_trans p z q); [apply (cycle_forward (z - p)); auto|].
    apply (cycle_trans z (f z) q); [exists 1; reflexivity|].
    destruct (Hf z Z1) as [A1 [A2 A3]]. destruct A3 as [[A3 A4]|[A3 [A4 A5]]].
    + exfalso. apply (Z3 (f z)); [lia|congruence].
    + apply (cycle_forward (q - f z)); auto; [|congruence].
      destruct (Nat.lt_ge_cases q (f z)); [exfalso; apply (A4 q); [assumption|congruence]|assumption].
Qed.
End Perm.
