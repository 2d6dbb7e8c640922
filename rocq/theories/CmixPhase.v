(** The first phase of the mix, with arbitrary values for the prover's variables. *)
From Coq Require Import List Arith NArith ZArith Bool Lia Permutation Field Ring.
From Verif Require Import Base Field PField PolyModel PolySpec PolyProofs PolyLemmas PlonkPoly CmixModel CmixSpec CmixProofs CmixSystem.
Import ListNotations.
Local Open Scope F_scope.

Section Phase.
Ltac conj := repeat match goal with |- _ /\ _ => split end.
Context {F : PField}.
Add Field Fph : (f_th F).
Notation cs := (cs F).
Notation lc := (lc F).
Notation mval := (mval F).
Notation rec := (record_at (F := F)).
Implicit Types (c : cs) (w : nat -> F) (C : F -> Prop).

(** ** Allocation *)
Fixpoint fresh (n k : nat) : list mvar := match k with O => [] | S k' => mkVar n (S n) :: fresh (S (S n)) k' end.
Lemma fresh_length k : forall n, length (fresh n k) = k. Proof. induction k; cbn; auto. Qed.
Lemma fresh_wf k : forall n m, (n + 2 * k <= m)%nat -> Forall (wf_var m) (fresh n k).
Proof. induction k as [|k IH]; intros n m H; constructor; [unfold wf_var; cbn; lia|]. apply IH. lia. Qed.
(** A system with more variables and nothing else. *)
Definition wider (c c' : cs) : Prop := lin c' = lin c /\ muls c' = muls c /\ defer c' = defer c /\ next c' = next c.
Lemma wider_trans a b c : wider a b -> wider b c -> wider a c. Proof. intros [A [B [C D]]] [A' [B' [C' D']]]. repeat split; congruence. Qed.
Lemma wider_sat c c' w : wider c c' -> sat c' w <-> sat c w. Proof. intros [A [B _]]. unfold sat. now rewrite A, B. Qed.
Lemma alloc_ok : forall (l : list mval) c, good c ->
  let vs := fst (alloc_values l c) in let c' := snd (alloc_values l c) in
  vs = fresh (nv c) (length l) /\ good c' /\ ext c c' /\ wider c c' /\ nv c' = (nv c + 2 * length l)%nat /\
  map (rec (wval c')) vs = l.
Proof.
  induction l as [|v l IH]; intros c G; cbn [alloc_values fst snd length map].
  - cbv zeta. conj; auto; try apply ext_refl; try lia. repeat split.
  - unfold allocate. cbn [nv wit lin muls defer next]. set (c2 := mkCs _ _ _ _ _ _).
    assert (W2 : wit c2 = wit c ++ [amount v; atype v]) by (unfold c2; cbn; now rewrite <- app_assoc).
    assert (G2 : good c2).
    { apply (good_grow c); auto; try reflexivity; [unfold c2; cbn; lia|rewrite W2, app_length, (g_wit c G); unfold c2; cbn; lia|].
      generalize (g_mul c G). unfold c2. cbn [muls nv]. apply Forall_impl. intros m. apply wf_mul_le. lia. }
    assert (E2 : ext c c2) by (apply (ext_grow c c2 _ G W2); unfold c2; cbn; lia).
    specialize (IH c2 G2). cbv zeta in *. destruct (alloc_values l c2) as [vs c3]. cbn [fst snd] in *.
    destruct IH as [V [G3 [E3 [D3 [N3 R3]]]]]. conj; auto.
    + cbn. f_equal. exact V.
    + eapply ext_trans; eauto.
    + rewrite N3. unfold c2. cbn. lia.
    + cbn [map]. f_equal; [|exact R3]. unfold record_at. cbn [v_amount v_type]. destruct E3 as [_ E3].
      rewrite !E3 by (unfold c2; cbn; lia). unfold wval. rewrite W2, !app_nth2 by (rewrite (g_wit c G); lia). rewrite (g_wit c G).
      replace (nv c - nv c)%nat with 0%nat by lia. replace (S (nv c) - nv c)%nat with 1%nat by lia. now destruct v.
Qed.
Lemma alloc_shape (l l' : list mval) c c' : same_shape c c' -> length l = length l' ->
  fst (alloc_values l c) = fst (alloc_values l' c') /\ same_shape (snd (alloc_values l c)) (snd (alloc_values l' c')).
Proof.
  revert l' c c'. induction l as [|v l IH]; intros [|v' l'] c c' H L; try discriminate L; [auto|]. cbn [alloc_values]. unfold allocate. cbn [nv wit lin muls defer next].
  set (c2 := mkCs _ _ _ _ _ _). set (c2' := mkCs (S (S (nv c'))) _ _ _ _ _).
  destruct (IH l' c2 c2') as [E S]; [destruct H as [A [B [C [D X]]]]; unfold c2, c2'; repeat split; cbn; congruence|now injection L|].
  destruct (alloc_values l c2) as [vs d], (alloc_values l' c2') as [vs' d']. cbn [fst snd] in *. split; [|exact S]. destruct H as [A _]. rewrite A, E. reflexivity.
Qed.

(** ** The conditions of a closure in terms of values *)
Definition shuf (C : F -> Prop) (A B : list mval) : Prop := forall k z, C k -> C z -> prod_at (map (single k) A) z = prod_at (map (single k) B) z.
Fixpoint chainr (C : F -> Prop) (prev : mval) (s o inter : list mval) : Prop :=
  match s, o, inter with
  | s1 :: s', o1 :: o', i1 :: i' => (forall x1 x2 x3, C x1 -> C x2 -> C x3 -> gate_prod prev s1 o1 i1 x1 x2 x3 = 0) /\ chainr C i1 s' o' i'
  | _, _, _ => True
  end.
(** [side] relates the values of one side: the list, its sorted, intermediate and merged lists. *)
Definition side (C : F -> Prop) (V S I M : list mval) : Prop :=
  match S with
  | s0 :: s' => shuf C V S /\ chainr C s0 s' (removelast M) (I ++ [last M dval])
  | [] => True
  end.
Definition final (C : F -> Prop) (A B : list mval) : Prop :=
  match A with [_] => A = B | _ => shuf C A B end.

Lemma combine_map {A B A' B'} (f : A -> A') (g : B -> B') : forall l l', combine (map f l) (map g l') = map (fun p => (f (fst p), g (snd p))) (combine l l').
Proof. induction l as [|a l IH]; intros [|b l']; cbn; auto. now rewrite IH. Qed.
Lemma combine_fst {A B} (l : list A) : forall (l' : list B), length l = length l' -> map fst (combine l l') = l.
Proof. induction l as [|a l IH]; intros [|b l'] L; try discriminate L; cbn; auto. now rewrite IH by (now injection L). Qed.
Lemma combine_snd {A B} (l : list A) : forall (l' : list B), length l = length l' -> map snd (combine l l') = l'.
Proof. induction l as [|a l IH]; intros [|b l'] L; try discriminate L; cbn; auto. now rewrite IH by (now injection L). Qed.
Lemma shuf_item C w (x0 : F) (a b : list mvar) : C x0 -> length a = length b -> item_all C w (LShuffle (combine a b)) <-> shuf C (map (rec w) a) (map (rec w) b).
Proof.
  intros C0 L. unfold item_all, shuf. cbn [item_at].
  assert (E1 : forall k, map (fun p => single k (rec w (fst p))) (combine a b) = map (single k) (map (rec w) a)).
  { intros k. rewrite <- (combine_fst a b L) at 2. now rewrite !map_map. }
  assert (E2 : forall k, map (fun p => single k (rec w (snd p))) (combine a b) = map (single k) (map (rec w) b)).
  { intros k. rewrite <- (combine_snd a b L) at 2. now rewrite !map_map. }
  split.
  - intros H k z Ck Cz. rewrite <- E1, <- E2. apply (H k z x0); assumption.
  - intros H x1 x2 x3 C1 C2 _. rewrite E1, E2. now apply H.
Qed.
Lemma gates_items C w : forall (s o : list mvar) (inter : list mvar) prev, length o = length s -> length inter = length s ->
  Forall (item_all C w) (gates_for (prev :: removelast inter) s o inter) <-> chainr C (rec w prev) (map (rec w) s) (map (rec w) o) (map (rec w) inter).
Proof.
  induction s as [|s1 s IH]; intros [|o1 o] [|i1 inter] prev L1 L2; try discriminate L1; try discriminate L2.
  - cbn. split; constructor.
  - injection L1 as L1. injection L2 as L2. cbn [map chainr]. rewrite <- (IH o inter i1 L1 L2).
    assert (E : gates_for (prev :: removelast (i1 :: inter)) (s1 :: s) (o1 :: o) (i1 :: inter) = LGate prev s1 o1 i1 :: gates_for (i1 :: removelast inter) s o inter).
    { unfold gates_for. cbn [combine map fst snd]. f_equal. destruct inter as [|i2 inter]; [destruct s; [reflexivity|discriminate L2]|reflexivity]. }
    rewrite E. split; [intros H; inversion H; subst; auto|intros [A B]; now constructor].
Qed.
Lemma removelast_snoc {A} (l : list A) x : removelast (l ++ [x]) = l. Proof. apply removelast_last. Qed.
Lemma map_removelast {A B} (f : A -> B) : forall l, map f (removelast l) = removelast (map f l).
Proof. induction l as [|a [|b l] IH]; cbn in *; auto. now rewrite <- IH. Qed.
Lemma map_last {A B} (f : A -> B) d d' : forall l, l <> [] -> f (last l d) = last (map f l) d'.
Proof. induction l as [|a [|b l] IH]; intros H; [contradiction|reflexivity|]. cbn [last map] in *. apply IH. discriminate. Qed.
Lemma fold_specify : forall gs c, fold_left (fun c g => specify g c) gs c = mkCs (nv c) (wit c) (lin c) (muls c) (defer c ++ gs) (next c).
Proof. induction gs as [|g gs IH]; intros c; cbn; [rewrite app_nil_r; now destruct c|]. rewrite IH. cbn. now rewrite <- app_assoc. Qed.
Lemma removelast_length {A} (l : list A) : length (removelast l) = (length l - 1)%nat.
Proof. induction l as [|a [|b l] IH]; cbn in *; auto. rewrite IH. lia. Qed.

(** ** One side *)
Definition side_items (vars sv iv mv : list mvar) : list later :=
  match sv, mv with
  | s0 :: s', m0 :: _ => LShuffle (combine vars sv) :: gates_for (s0 :: iv) s' (removelast mv) (iv ++ [last mv m0])
  | _, _ => []
  end.
Definition side_gen (vars : list mvar) (S I M : list mval) (c : cs) : list mvar * cs :=
  let (sv, c1) := alloc_values S c in let (iv, c2) := alloc_values I c1 in let (mv, c3) := alloc_values M c2 in
  (mv, fold_left (fun c g => specify g c) (side_items vars sv iv mv) c3).
(** The lengths of the lists of one side. *)
Definition sized (n : nat) (S I M : list mval) : Prop :=
  length M = n /\ ((n = 1 /\ S = [] /\ I = []) \/ (2 <= n /\ length S = n /\ length I = n - 2))%nat.
Lemma gates_wf n : forall a b o i, Forall (wf_var n) a -> Forall (wf_var n) b -> Forall (wf_var n) o -> Forall (wf_var n) i -> Forall (wf_item n) (gates_for a b o i).
Proof.
  unfold gates_for. induction a as [|x a IH]; intros [|y b] [|z o] [|t i] A B O I; cbn; constructor; inversion A; inversion B; inversion O; inversion I; subst; [cbn; auto|now apply IH].
Qed.
Lemma in_removelast {A} (x : A) l : In x (removelast l) -> In x l.
Proof. induction l as [|a [|b l] IH]; cbn in *; auto. intros [->|H]; auto. Qed.
Lemma forall_removelast {A} (P : A -> Prop) l : Forall P l -> Forall P (removelast l).
Proof. rewrite !Forall_forall. intros H x Hx. apply H. now apply in_removelast. Qed.
Lemma last_in {A} (d : A) l : l <> [] -> In (last l d) l.
Proof. induction l as [|a [|b l] IH]; intros H; [contradiction|now left|]. right. apply IH. discriminate. Qed.
Lemma gates_out_wf n x : wf_var n x -> forall l, Forall (wf_var n) l -> Forall (wf_var n) (l ++ [x]).
Proof. intros W l H. apply Forall_app. auto. Qed.
Lemma forall_le n m l : (n <= m)%nat -> Forall (wf_var n) l -> Forall (wf_var m) l. Proof. intros L. apply Forall_impl. intros v. now apply wf_var_le. Qed.
Lemma combine_wf n a : forall b, Forall (wf_var n) a -> Forall (wf_var n) b -> Forall (fun p => wf_var n (fst p) /\ wf_var n (snd p)) (combine a b).
Proof. induction a as [|x a IH]; intros [|y b] A B; cbn; constructor; inversion A; inversion B; subst; auto. Qed.

Lemma side_ok C (x0 : F) vars (S I M : list mval) c : C x0 -> good c -> Forall (wf_var (nv c)) vars -> sized (length vars) S I M ->
  let mv := fst (side_gen vars S I M c) in let c' := snd (side_gen vars S I M c) in
  exists sv iv,
  good c' /\ ext c c' /\ next c' = next c /\ Forall (wf_var (nv c')) mv /\
  length mv = length M /\ length sv = length S /\ length iv = length I /\
  (forall w, sat c' w <-> sat c w) /\
  (forall w, Forall (item_all C w) (defer c') <-> Forall (item_all C w) (defer c) /\ side C (map (rec w) vars) (map (rec w) sv) (map (rec w) iv) (map (rec w) mv)) /\
  map (rec (wval c')) sv = S /\ map (rec (wval c')) iv = I /\ map (rec (wval c')) mv = M /\
  Forall (wf_var (nv c')) sv /\ Forall (wf_var (nv c')) iv.
Proof.
  intros C0 G W Z. cbv zeta. unfold side_gen.
  pose proof (alloc_ok S c G) as H1. destruct (alloc_values S c) as [sv c1]. cbv zeta in H1. cbn [fst snd] in H1. destruct H1 as [V1 [G1 [E1 [D1 [N1 R1]]]]].
  pose proof (alloc_ok I c1 G1) as H2. destruct (alloc_values I c1) as [iv c2]. cbv zeta in H2. cbn [fst snd] in H2. destruct H2 as [V2 [G2 [E2 [D2 [N2 R2]]]]].
  pose proof (alloc_ok M c2 G2) as H3. destruct (alloc_values M c2) as [mv c3]. cbv zeta in H3. cbn [fst snd] in H3. destruct H3 as [V3 [G3 [E3 [D3 [N3 R3]]]]].
  cbn [fst snd]. rewrite fold_specify. set (c4 := mkCs _ _ _ _ _ _). exists sv, iv.
  assert (Ls : length sv = length S) by (rewrite V1; apply fresh_length).
  assert (Li : length iv = length I) by (rewrite V2; apply fresh_length).
  assert (Lm : length mv = length M) by (rewrite V3; apply fresh_length).
  assert (D : wider c c3) by (eapply wider_trans; [exact D1|]; eapply wider_trans; eauto).
  assert (EX : ext c c3) by (eapply ext_trans; [exact E1|]; eapply ext_trans; eauto).
  assert (Ws : Forall (wf_var (nv c3)) sv) by (rewrite V1; apply fresh_wf; lia).
  assert (Wi : Forall (wf_var (nv c3)) iv) by (rewrite V2; apply fresh_wf; lia).
  assert (Wm : Forall (wf_var (nv c3)) mv) by (rewrite V3; apply fresh_wf; lia).
  assert (Wv : Forall (wf_var (nv c3)) vars) by (apply (forall_le (nv c)); [apply EX|exact W]).
  assert (R : forall vs l c' , Forall (wf_var (nv c')) vs -> ext c' c3 -> map (rec (wval c')) vs = l -> map (rec (wval c4)) vs = l).
  { intros vs l c' Wx [_ Ex] Rx. rewrite <- Rx. apply map_ext_in. intros v Hv. rewrite Forall_forall in Wx. apply (rec_agree (nv c')); [now apply Wx|]. exact Ex. }
  assert (WI : Forall (wf_item (nv c3)) (side_items vars sv iv mv)).
  { destruct Z as [Z1 [[Z2 [-> ->]]|[Z2 [Z3 Z4]]]]; [destruct sv; [constructor|discriminate Ls]|].
    destruct sv as [|s0 s']; [cbn in *; lia|]. destruct mv as [|m0 m']; [cbn in *; lia|]. cbn [side_items]. inversion Ws; subst. constructor.
    - split; [rewrite combine_length; cbn in *; lia|]. now apply combine_wf.
    - apply gates_wf; auto; [now apply forall_removelast|]. apply gates_out_wf; [|exact Wi]. rewrite Forall_forall in Wm. apply Wm. apply last_in. discriminate. }
  conj; auto.
  - destruct G3 as [A1 A2 A3 A4]. constructor; auto. unfold c4. cbn [defer nv]. apply Forall_app. auto.
  - cbn. apply D.
  - intros w. apply (wider_sat c c3 w D).
  - intros w. unfold c4. cbn [defer]. rewrite Forall_app. destruct D as [_ [_ [D _]]]. rewrite D. apply and_iff_compat_l.
    destruct Z as [Z1 [[Z2 [-> ->]]|[Z2 [Z3 Z4]]]].
    + destruct sv; [|discriminate Ls]. cbn. split; constructor.
    + destruct sv as [|s0 s']; [cbn in *; lia|]. destruct mv as [|m0 m']; [cbn in *; lia|]. cbn [side_items side map].
      assert (X : Forall (item_all C w) (gates_for (s0 :: iv) s' (removelast (m0 :: m')) (iv ++ [last (m0 :: m') m0])) <->
        chainr C (rec w s0) (map (rec w) s') (removelast (map (rec w) (m0 :: m'))) (map (rec w) iv ++ [last (map (rec w) (m0 :: m')) dval])).
      { rewrite <- map_removelast. rewrite <- (map_last (rec w) m0 dval (m0 :: m')) by discriminate.
        change [rec w (last (m0 :: m') m0)] with (map (rec w) [last (m0 :: m') m0]). rewrite <- map_app. rewrite <- gates_items by (rewrite ?removelast_length, ?app_length; cbn in *; lia).
        rewrite removelast_snoc. reflexivity. }
      change (map (rec w) (m0 :: m')) with (rec w m0 :: map (rec w) m') in X. rewrite <- X.
      rewrite <- (shuf_item C w x0 vars (s0 :: s') C0) by (cbn in *; lia). split; [intros Q; inversion Q; subst; auto|intros [A B]; now constructor].
  - apply (R sv S c1); [rewrite V1; apply fresh_wf; lia|eapply ext_trans; eauto|exact R1].
  - apply (R iv I c2); [rewrite V2; apply fresh_wf; lia|exact E3|exact R2].
Qed.

(** ** Range proofs *)
Fixpoint bval (l : list bool) : Z := match l with [] => 0 | b :: l' => (if b then 1 else 0) + 2 * bval l' end%Z.
Lemma bval_range l : (0 <= bval l < 2 ^ Z.of_nat (length l))%Z.
Proof. induction l as [|b l IH]; cbn [bval length]; [cbn; lia|]. rewrite Nat2Z.inj_succ, Z.pow_succ_r by lia. destruct b; lia. Qed.
Lemma bval_bits z n : forall k, bval (map (fun i => Z.testbit z (Z.of_nat i)) (seq k n)) = ((z / 2 ^ Z.of_nat k) mod 2 ^ Z.of_nat n)%Z.
Proof.
  induction n as [|n IH]; intros k; [cbn; now rewrite Z.mod_1_r|]. cbn [seq map bval]. rewrite IH. rewrite !Nat2Z.inj_succ, !Z.pow_succ_r by lia.
  assert (P : (0 < 2 ^ Z.of_nat k)%Z) by (apply Z.pow_pos_nonneg; lia). assert (Q : (0 < 2 ^ Z.of_nat n)%Z) by (apply Z.pow_pos_nonneg; lia).
  rewrite Z.rem_mul_r by lia. rewrite (Z.mul_comm 2 (2 ^ Z.of_nat k)). rewrite <- Z.div_div by lia. f_equal.
  rewrite Z.testbit_odd, Z.shiftr_div_pow2 by lia. rewrite Zmod_odd. reflexivity.
Qed.
Lemma bits_of_length (x : F) : length (bits_of x) = 64%nat. Proof. unfold bits_of. now rewrite map_length, seq_length. Qed.
Lemma bits_of_val (x : F) : (toZ x < 2 ^ 64)%Z -> bval (bits_of x) = toZ x.
Proof. intros H. unfold bits_of. rewrite bval_bits. change (2 ^ Z.of_nat 0)%Z with 1%Z. rewrite Z.div_1_r. apply Z.mod_small. pose proof (toZ_range F x). split; [lia|exact H]. Qed.
Lemma fofZ_bval_cons b l : fofZ (F := F) (bval (b :: l)) = (if b then 1 else 0) + (1 + 1) * fofZ (F := F) (bval l).
Proof. cbn [bval]. rewrite fofZ_add, fofZ_mul. replace (fofZ (F := F) 2) with (1 + 1 : F) by (change 2%Z with (1 + 1)%Z; rewrite fofZ_add; reflexivity). destruct b; rewrite ?fofZ_1, ?fofZ_0; ring. Qed.

Lemma range_loop_ok : forall bits (e : F) (var : lc) c, good c -> wf_lc (nv c) var ->
  let var' := fst (range_loop bits e var c) in let c' := snd (range_loop bits e var c) in
  good c' /\ ext c c' /\ wf_lc (nv c') var' /\ next c' = next c /\ defer c' = defer c /\
  (forall w, sat c' w -> sat c w /\ exists bs, length bs = length bits /\ leval w var' = leval w var - e * fofZ (F := F) (bval bs)) /\
  (sat c (wval c) -> sat c' (wval c') /\ leval (wval c') var' = leval (wval c) var - e * fofZ (F := F) (bval bits)).
Proof.
  induction bits as [|b bits IH]; intros e var c G W; cbn [range_loop fst snd].
  - cbv zeta. conj; auto; try apply ext_refl.
    + intros w Sw. split; [exact Sw|]. exists []. split; [reflexivity|]. cbn [bval]. rewrite fofZ_0. ring.
    + intros Sw. split; [exact Sw|]. cbn [bval]. rewrite fofZ_0. ring.
  - pose proof (alloc_mul_ok (if b then 0 else 1) (if b then 1 else 0) c G) as H. cbv zeta in H. unfold allocate_multiplier in *. cbn [fst snd] in *.
    set (c1 := mkCs _ _ _ _ _ _) in *. destruct H as [G1 [E1 [N1 [D1 [X1 [V0 [V1 [S1 V2]]]]]]]]. cbv zeta iota.
    set (y := S (nv c)) in *. set (o := S y) in *.
    set (c2 := constrain _ (constrain _ c1)).
    assert (L : (nv c < nv c1 /\ y < nv c1 /\ o < nv c1)%nat) by (unfold o, y; lia).
    assert (G2 : good c2).
    { apply good_constrain; [apply good_constrain; [exact G1|now apply wf_lvar]|]. apply wf_ladd; [now apply wf_lvar|]. apply wf_lsub; [now apply wf_lvar|apply wf_lconst]. }
    assert (E2 : ext c c2) by exact E1.
    assert (W2 : wf_lc (nv c2) (lsub var (lscale e (lvar y)))) by (apply wf_lsub; [apply (wf_lc_le (nv c)); [apply E1|exact W]|now apply wf_lscale, wf_lvar]).
    destruct (IH (e + e) (lsub var (lscale e (lvar y))) c2 G2 W2) as [G3 [E3 [W3 [X3 [D3 [S3 C3]]]]]]. cbv zeta in *.
    set (r := range_loop bits (e + e) (lsub var (lscale e (lvar y))) c2) in *. conj; auto.
    + eapply ext_trans; eauto.
    + intros w Sw. apply S3 in Sw. destruct Sw as [Sw [bs [Lb Eb]]]. unfold c2 in Sw. rewrite !sat_constrain in Sw. destruct Sw as [[Sw K1] K2].
      apply S1 in Sw. destruct Sw as [Sw K3]. rewrite leval_add, leval_sub, !leval_var, leval_const in K2. rewrite leval_var in K1.
      split; [exact Sw|]. rewrite leval_sub, leval_scale, leval_var in Eb.
      assert (K4 : w y = 0 \/ w y = 1).
      { assert (Q : w y * (w y - 1) = 0).
        { transitivity (fopp (w o) + w y * (w (nv c) + (w y - 1))); [rewrite K3; ring|]. rewrite K1, K2. ring. }
        apply (fmul_0 F) in Q. destruct Q as [Q|Q]; [now left|right]. now apply (proj1 (fsub_0 F _ _)). }
      destruct K4 as [K4|K4]; [exists (false :: bs)|exists (true :: bs)]; (split; [cbn; congruence|]); rewrite fofZ_bval_cons, Eb, K4; ring.
    + intros Sc. assert (Q : sat c2 (wval c2)).
      { unfold c2. rewrite !sat_constrain. change (wval (constrain _ (constrain _ c1))) with (wval c1). rewrite leval_add, leval_sub, !leval_var, leval_const. conj.
        - apply S1. split; [|rewrite V2, V0, V1; reflexivity]. apply (sat_agree c (wval c)); auto. intros i Hi. symmetry. now apply E1.
        - change (wval c1 o = 0). rewrite V2. destruct b; ring.
        - change (wval c1 (nv c) + (wval c1 y - 1) = 0). rewrite V0. rewrite V1. destruct b; ring. }
      apply C3 in Q. destruct Q as [Q1 Q2]. split; [exact Q1|]. rewrite Q2, fofZ_bval_cons, leval_sub, leval_scale, leval_var.
      change (wval c2) with (wval c1). rewrite (leval_agree (nv c) (wval c1) (wval c) var W (proj2 E1)). rewrite V1. destruct b; ring.
Qed.
Fixpoint ranges (outs : list mvar) (bits : list (list bool)) (c : cs) : cs :=
  match outs, bits with
  | o :: outs', b :: bits' => let (v, c1) := range_loop b 1 (lvar (v_amount o)) c in ranges outs' bits' (constrain v c1)
  | _, _ => c
  end.
Lemma is64_bval (v : mval) bs : length bs = 64%nat -> amount v = fofZ (F := F) (bval bs) -> is64 v.
Proof.
  intros L E. unfold is64. rewrite E. pose proof (bval_range bs) as R. rewrite L in R. change (Z.of_nat 64) with 64%Z in R.
  rewrite toZ_fofZ. pose proof (pchar_gt1 F) as P. apply Z.le_lt_trans with (bval bs); [apply Z.mod_le; lia|lia].
Qed.
Lemma ranges_ok : forall outs bits c, good c -> Forall (wf_var (nv c)) outs -> length bits = length outs -> Forall (fun b => length b = 64%nat) bits ->
  let c' := ranges outs bits c in
  good c' /\ ext c c' /\ next c' = next c /\ defer c' = defer c /\
  (forall w, sat c' w -> sat c w /\ Forall is64 (map (rec w) outs)) /\
  (sat c (wval c) -> bits = map (fun v => bits_of (amount v)) (map (rec (wval c)) outs) -> Forall is64 (map (rec (wval c)) outs) -> sat c' (wval c')).
Proof.
  induction outs as [|o outs IH]; intros [|b bits] c G W L B; try discriminate L; cbn [ranges].
  - cbv zeta. conj; auto; try apply ext_refl. intros w Sw. split; [exact Sw|constructor].
  - inversion W as [|? ? Wo W']; subst. inversion B as [|? ? Lb B']; subst. injection L as L.
    destruct (range_loop_ok b 1 (lvar (v_amount o)) c G) as [G1 [E1 [W1 [X1 [D1 [S1 C1]]]]]]; [apply wf_lvar, Wo|]. cbv zeta in *.
    destruct (range_loop b 1 (lvar (v_amount o)) c) as [v c1]. cbn [fst snd] in *.
    assert (G2 : good (constrain v c1)) by now apply good_constrain.
    assert (E2 : ext c (constrain v c1)) by exact E1.
    destruct (IH bits (constrain v c1) G2) as [G3 [E3 [X3 [D3 [S3 C3]]]]]; auto; [apply (forall_le (nv c)); [apply E1|exact W']|].
    conj; auto; try (eapply ext_trans; eauto).
    + rewrite X3. exact X1.
    + rewrite D3. exact D1.
    + intros w Sw. apply S3 in Sw. destruct Sw as [Sw A]. rewrite sat_constrain in Sw. destruct Sw as [Sw K]. apply S1 in Sw. destruct Sw as [Sw [bs [Lbs E]]].
      split; [exact Sw|]. cbn [map]. constructor; [|exact A]. rewrite K, leval_var in E. apply (is64_bval _ bs); [congruence|].
      unfold record_at. cbn [amount]. apply (proj1 (fsub_0 F _ _)). transitivity (w (v_amount o) - 1 * fofZ (bval bs)); [ring|now symmetry].
    + intros Sc Eb I. cbn [map] in Eb, I. injection Eb as Eb1 Eb2. inversion I as [|? ? I1 I2]; subst.
      assert (RE : map (rec (wval (constrain v c1))) outs = map (rec (wval c)) outs).
      { apply map_ext_in. intros u Hu. apply (rec_agree (nv c)); [rewrite Forall_forall in W'; auto|apply E1]. }
      apply C3.
      * rewrite sat_constrain. apply C1 in Sc. destruct Sc as [Sc K]. split; [exact Sc|]. change (wval (constrain v c1)) with (wval c1). rewrite K, leval_var, bits_of_val by exact I1.
        unfold record_at. cbn [amount]. rewrite fofZ_toZ. ring.
      * rewrite RE. first [exact Eb2|reflexivity].
      * rewrite RE. exact I2.
Qed.

(** ** The whole first phase *)
Definition last_gadget (a b : list mvar) (c : cs) : cs :=
  match a, b with
  | [i0], p0 :: _ => constrain (lsub (lvar (v_type p0)) (lvar (v_type i0))) (constrain (lsub (lvar (v_amount p0)) (lvar (v_amount i0))) c)
  | _, _ => specify (LShuffle (combine a b)) c
  end.
Definition padl {A} (n m : nat) (a p : list A) : list A := if Nat.ltb n m then a ++ p else a.
Definition padr {A} (n m : nat) (a p : list A) : list A := if Nat.ltb n m then a else a ++ p.
Definition mix_gen (ins : list mvar) (S I M : list mval) (outs : list mvar) (S' I' M' P : list mval) (bits : list (list bool)) (c : cs) : cs :=
  let (mi, c1) := side_gen ins S I M c in
  let (mo, c2) := side_gen outs S' I' M' c1 in
  let (pv, c3) := alloc_values P c2 in
  let n := length ins in let m := length outs in
  ranges outs bits (last_gadget (padl n m mi pv) (padr n m mo pv) c3).
Definition mixrel (C : F -> Prop) (V V' S I M S' I' M' P : list mval) : Prop :=
  side C V S I M /\ side C V' S' I' M' /\
  final C (padl (length V) (length V') M P) (padr (length V) (length V') M' P).
Lemma last_gadget_ok C (x0 : F) a b c : C x0 -> good c -> Forall (wf_var (nv c)) a -> Forall (wf_var (nv c)) b -> length a = length b -> (1 <= length a)%nat ->
  let c' := last_gadget a b c in
  good c' /\ ext c c' /\ next c' = next c /\
  (forall w, sat c' w /\ Forall (item_all C w) (defer c') <-> (sat c w /\ Forall (item_all C w) (defer c)) /\ final C (map (rec w) a) (map (rec w) b)) /\
  wval c' = wval c /\ nv c' = nv c.
Proof.
  intros C0 G Wa Wb L L1. cbv zeta. destruct a as [|a0 [|a1 a]]; [cbn in L1; lia| |].
  - destruct b as [|b0 [|b1 b]]; try discriminate L. cbn [last_gadget]. inversion Wa as [|? ? [A1 A2] _]; subst. inversion Wb as [|? ? [B1 B2] _]; subst. conj; auto; try reflexivity.
    + apply good_constrain; [apply good_constrain; [exact G|]|]; apply wf_lsub; now apply wf_lvar.
    + exact (ext_refl c).
    + intros w. rewrite !sat_constrain, !leval_sub, !leval_var. cbn [constrain defer map final]. unfold record_at. split.
      * intros [[[Sw K1] K2] I]. apply (proj1 (fsub_0 F _ _)) in K1, K2. rewrite K1, K2. auto.
      * intros [[Sw I] E]. injection E as E1 E2. rewrite E1, E2. conj; auto; ring.
  - assert (X : last_gadget (a0 :: a1 :: a) b c = specify (LShuffle (combine (a0 :: a1 :: a) b)) c) by (destruct b; reflexivity). rewrite X. conj; auto; try reflexivity.
    + apply good_specify; [exact G|]. split; [rewrite combine_length; rewrite <- L; cbn [length]; lia|]. now apply combine_wf.
    + exact (ext_refl c).
    + intros w. change (sat (specify _ c) w) with (sat c w). cbn [specify defer]. rewrite Forall_app. cbn [map final].
      pose proof (shuf_item C w x0 (a0 :: a1 :: a) b C0 L) as Q. cbn [map] in Q. rewrite <- Q. split.
      * intros [A [B K]]. inversion K; subst. auto.
      * intros [[A B] K]. auto.
Qed.
Lemma padl_map {A B} (f : A -> B) n m a p : map f (padl n m a p) = padl n m (map f a) (map f p).
Proof. unfold padl. destruct (Nat.ltb n m); [apply map_app|reflexivity]. Qed.
Lemma padr_map {A B} (f : A -> B) n m a p : map f (padr n m a p) = padr n m (map f a) (map f p).
Proof. unfold padr. destruct (Nat.ltb n m); [reflexivity|apply map_app]. Qed.
Lemma padl_forall {A} (Q : A -> Prop) n m a p : Forall Q a -> Forall Q p -> Forall Q (padl n m a p).
Proof. intros. unfold padl. destruct (Nat.ltb n m); [apply Forall_app; auto|assumption]. Qed.
Lemma padr_forall {A} (Q : A -> Prop) n m a p : Forall Q a -> Forall Q p -> Forall Q (padr n m a p).
Proof. intros. unfold padr. destruct (Nat.ltb n m); [assumption|apply Forall_app; auto]. Qed.
Lemma pad_lengths {A} n m (a b p : list A) : length a = n -> length b = m -> length p = (Nat.max n m - Nat.min n m)%nat -> length (padl n m a p) = Nat.max n m /\ length (padr n m b p) = Nat.max n m.
Proof. intros La Lb Lp. unfold padl, padr. destruct (Nat.ltb_spec n m); rewrite ?app_length; lia. Qed.
Lemma recs_ext c c' vs : ext c c' -> Forall (wf_var (nv c)) vs -> map (rec (wval c')) vs = map (rec (wval c)) vs.
Proof. intros [_ E] W. apply map_ext_in. intros v Hv. rewrite Forall_forall in W. apply (rec_agree (nv c)); auto. Qed.

Lemma gen_ok C (x0 : F) ins outs (S I M S' I' M' P : list mval) bits c : C x0 -> good c -> Forall (wf_var (nv c)) ins -> Forall (wf_var (nv c)) outs ->
  (1 <= length ins)%nat -> (1 <= length outs)%nat -> sized (length ins) S I M -> sized (length outs) S' I' M' ->
  length P = (Nat.max (length ins) (length outs) - Nat.min (length ins) (length outs))%nat ->
  length bits = length outs -> Forall (fun b => length b = 64%nat) bits ->
  let c' := mix_gen ins S I M outs S' I' M' P bits c in
  good c' /\ ext c c' /\ next c' = next c /\
  (forall w, sat c' w -> Forall (item_all C w) (defer c') -> exists T J L T' J' L' Q,
     sized (length ins) T J L /\ sized (length outs) T' J' L' /\ length Q = length P /\
     mixrel C (map (rec w) ins) (map (rec w) outs) T J L T' J' L' Q /\ Forall is64 (map (rec w) outs)) /\
  (sat c (wval c) -> defer c = [] -> mixrel C (map (rec (wval c)) ins) (map (rec (wval c)) outs) S I M S' I' M' P ->
   bits = map (fun v => bits_of (amount v)) (map (rec (wval c)) outs) -> Forall is64 (map (rec (wval c)) outs) ->
   sat c' (wval c') /\ Forall (item_all C (wval c')) (defer c')).
Proof.
  intros C0 G Wi Wo Ni No Zi Zo Lp Lb Bb. cbv zeta. unfold mix_gen.
  destruct (side_ok C x0 ins S I M c C0 G Wi Zi) as [sv [iv [G1 [E1 [X1 [W1 [L1 [Ls1 [Li1 [S1 [I1 [R1 [R2 [R3 [Wsv Wiv]]]]]]]]]]]]]]]. cbv zeta in *.
  destruct (side_gen ins S I M c) as [mi c1]. cbn [fst snd] in *.
  assert (Wo1 : Forall (wf_var (nv c1)) outs) by (apply (forall_le (nv c)); [apply E1|exact Wo]).
  destruct (side_ok C x0 outs S' I' M' c1 C0 G1 Wo1 Zo) as [sv' [iv' [G2 [E2 [X2 [W2 [L2 [Ls2 [Li2 [S2 [I2 [R1' [R2' [R3' [Wsv' Wiv']]]]]]]]]]]]]]]. cbv zeta in *.
  destruct (side_gen outs S' I' M' c1) as [mo c2]. cbn [fst snd] in *.
  destruct (alloc_ok P c2 G2) as [V3 [G3 [E3 [D3 [N3 R3p]]]]]. cbv zeta in *. destruct (alloc_values P c2) as [pv c3]. cbn [fst snd] in *.
  assert (Lpv : length pv = length P) by (rewrite V3; apply fresh_length).
  assert (Wpv : Forall (wf_var (nv c3)) pv) by (rewrite V3; apply fresh_wf; lia).
  assert (Wmi : Forall (wf_var (nv c3)) mi) by (apply (forall_le (nv c1)); [destruct E2, E3; lia|exact W1]).
  assert (Wmo : Forall (wf_var (nv c3)) mo) by (apply (forall_le (nv c2)); [destruct E3; lia|exact W2]).
  set (n := length ins) in *. set (m := length outs) in *.
  assert (LM : length mi = n) by (rewrite L1; apply Zi). assert (LM' : length mo = m) by (rewrite L2; apply Zo).
  destruct (pad_lengths n m mi mo pv LM LM') as [PL1 PL2]; [congruence|].
  destruct (last_gadget_ok C x0 (padl n m mi pv) (padr n m mo pv) c3 C0 G3) as [G4 [E4 [X4 [SI4 [V4 N4]]]]]; [now apply padl_forall|now apply padr_forall|congruence|lia|].
  cbv zeta in *. set (c4 := last_gadget _ _ c3) in *.
  assert (E34 : ext c c4) by (eapply ext_trans; [exact E1|]; eapply ext_trans; [exact E2|]; eapply ext_trans; eauto).
  assert (Wo4 : Forall (wf_var (nv c4)) outs) by (apply (forall_le (nv c)); [apply E34|exact Wo]).
  destruct (ranges_ok outs bits c4 G4 Wo4 Lb Bb) as [G5 [E5 [X5 [D5 [S5 C5]]]]]. cbv zeta in *. set (c5 := ranges outs bits c4) in *.
  destruct D3 as [D3a [D3b [D3c D3d]]].
  assert (IFF : forall w, sat c4 w /\ Forall (item_all C w) (defer c4) <-> (sat c w /\ Forall (item_all C w) (defer c)) /\
     mixrel C (map (rec w) ins) (map (rec w) outs) (map (rec w) sv) (map (rec w) iv) (map (rec w) mi) (map (rec w) sv') (map (rec w) iv') (map (rec w) mo) (map (rec w) pv)).
  { intros w. rewrite SI4. rewrite (wider_sat c2 c3 w) by (repeat split; assumption). rewrite D3c, S2, S1, I2, I1. unfold mixrel. rewrite !map_length. fold n m. rewrite padl_map, padr_map. tauto. }
  conj; auto.
  - eapply ext_trans; eauto.
  - congruence.
  - intros w Sw It. apply S5 in Sw. destruct Sw as [Sw R64]. rewrite D5 in It. destruct (proj1 (IFF w) (conj Sw It)) as [_ MR].
    exists (map (rec w) sv), (map (rec w) iv), (map (rec w) mi), (map (rec w) sv'), (map (rec w) iv'), (map (rec w) mo), (map (rec w) pv).
    assert (SZ : forall k (a b d : list mvar) (a' b' d' : list mval), length a = length a' -> length b = length b' -> length d = length d' -> sized k a' b' d' -> sized k (map (rec w) a) (map (rec w) b) (map (rec w) d)).
    { intros k a b d a' b' d' Q1 Q2 Q3 [Z1 Z2]. split; [rewrite map_length; congruence|]. destruct Z2 as [[Z2 [-> ->]]|[Z2 [Z3 Z4]]]; [left|right; rewrite !map_length; conj; congruence].
      destruct a; [|discriminate Q1]. destruct b; [|discriminate Q2]. auto. }
    conj; auto; [eapply SZ; eauto|eapply SZ; eauto|rewrite map_length; exact Lpv].
  - intros Sc Dc MR Eb R64.
    assert (RE : forall vs c', Forall (wf_var (nv c')) vs -> ext c' c4 -> map (rec (wval c4)) vs = map (rec (wval c')) vs) by (intros; now apply recs_ext).
    assert (E24 : ext c2 c4) by (eapply ext_trans; eauto).
    assert (E14 : ext c1 c4) by (eapply ext_trans; eauto).
    assert (K : sat c4 (wval c4) /\ Forall (item_all C (wval c4)) (defer c4)).
    { apply IFF. split.
      - split; [apply (sat_agree c (wval c)); auto; intros i Hi; symmetry; now apply E34|]. rewrite Dc. constructor.
      - rewrite (RE ins c Wi E34), (RE outs c Wo E34).
        assert (PF : forall vs l c', map (rec (wval c')) vs = l -> Forall (wf_var (nv c')) vs -> ext c' c4 -> map (rec (wval c4)) vs = l) by (intros vs l c' Q1 Q2 Q3; rewrite (RE vs c' Q2 Q3); exact Q1).
        rewrite (PF sv S c1 R1 Wsv E14), (PF iv I c1 R2 Wiv E14), (PF mi M c1 R3 W1 E14), (PF sv' S' c2 R1' Wsv' E24), (PF iv' I' c2 R2' Wiv' E24), (PF mo M' c2 R3' W2 E24), (PF pv P c3 R3p Wpv E4). exact MR. }
    destruct K as [K1 K2]. split.
    + apply C5; [exact K1|rewrite (RE outs c Wo E34); exact Eb|rewrite (RE outs c Wo E34); exact R64].
    + rewrite D5. pose proof (g_def c4 G4) as WD. rewrite Forall_forall in *. intros k Hk y1 y2 y3 Y1 Y2 Y3.
      apply (item_agree (nv c4) (wval c4)); [now apply WD|intros i Hi; symmetry; now apply E5|]. now apply K2.
Qed.
End Phase.
