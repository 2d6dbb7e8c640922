(** The constraint systems of the mix: what their satisfaction means. *)
From Coq Require Import List Arith NArith ZArith Bool Lia Permutation Field Ring.
From Verif Require Import Base Field PField PolyModel PolySpec PolyProofs PolyLemmas PlonkPoly CmixModel CmixSpec CmixProofs.
Import ListNotations.
Local Open Scope F_scope.

Section System.
Context {F : PField}.
Add Field Fsy : (f_th F).
Ltac conj := repeat match goal with |- _ /\ _ => split end.
Notation cs := (cs F).
Notation lc := (lc F).

(** ** Well-formed systems *)
Definition wf_lc (n : nat) (a : lc) : Prop := Forall (fun t => (fst t < n)%nat) (fst a).
Definition wf_var (n : nat) (v : mvar) : Prop := (v_amount v < n /\ v_type v < n)%nat.
Definition wf_item (n : nat) (k : later) : Prop :=
  match k with
  | LGate a b c d => wf_var n a /\ wf_var n b /\ wf_var n c /\ wf_var n d
  | LShuffle l => (2 <= length l)%nat /\ Forall (fun p => wf_var n (fst p) /\ wf_var n (snd p)) l
  end.
Definition wf_mul (n : nat) (m : nat * nat * nat) : Prop := (fst (fst m) < n /\ snd (fst m) < n /\ snd m < n)%nat.
Record good (c : cs) : Prop := mkGood {
  g_wit : length (wit c) = nv c; g_lin : Forall (wf_lc (nv c)) (lin c);
  g_mul : Forall (wf_mul (nv c)) (muls c); g_def : Forall (wf_item (nv c)) (defer c) }.
Definition agree (n : nat) (w w' : nat -> F) : Prop := forall i, (i < n)%nat -> w i = w' i.
Definition ext (c c' : cs) : Prop := (nv c <= nv c')%nat /\ agree (nv c) (wval c') (wval c).

Lemma wf_lc_le n m a : (n <= m)%nat -> wf_lc n a -> wf_lc m a. Proof. intros L. apply Forall_impl. intros; lia. Qed.
Lemma wf_var_le n m v : (n <= m)%nat -> wf_var n v -> wf_var m v. Proof. unfold wf_var. lia. Qed.
Lemma wf_item_le n m k : (n <= m)%nat -> wf_item n k -> wf_item m k.
Proof.
  intros L. destruct k as [a b c d|l]; cbn; unfold wf_var; [lia|]. intros [A B]. split; [exact A|].
  revert B. apply Forall_impl. intros p. unfold wf_var. lia.
Qed.
Lemma wf_mul_le n m k : (n <= m)%nat -> wf_mul n k -> wf_mul m k. Proof. unfold wf_mul. lia. Qed.

(** Linear combinations. *)
Lemma leval_terms_app w (a b : list (nat * F)) : leval_terms w (a ++ b) = leval_terms w a + leval_terms w b.
Proof. induction a as [|[v k] a IH]; cbn; [ring|]. rewrite IH. ring. Qed.
Lemma leval_add w (a b : lc) : leval w (ladd a b) = leval w a + leval w b.
Proof. unfold leval, ladd. cbn [fst snd]. rewrite leval_terms_app. ring. Qed.
Lemma leval_scale w k (a : lc) : leval w (lscale k a) = k * leval w a.
Proof.
  unfold leval, lscale. cbn [fst snd]. enough (X : leval_terms w (map (fun t => (fst t, k * snd t)) (fst a)) = k * leval_terms w (fst a)) by (rewrite X; ring).
  induction (fst a) as [|[v q] l IH]; cbn; [ring|]. rewrite IH. ring.
Qed.
Lemma leval_sub w (a b : lc) : leval w (lsub a b) = leval w a - leval w b.
Proof. unfold lsub. rewrite leval_add, leval_scale. ring. Qed.
Lemma leval_var (w : nat -> F) v : leval w (lvar v) = w v. Proof. unfold leval, lvar. cbn. ring. Qed.
Lemma leval_const (w : nat -> F) k : leval w (lconst k) = k. Proof. unfold leval, lconst. cbn. ring. Qed.
Lemma leval_agree n w w' a : wf_lc n a -> agree n w w' -> leval w a = leval w' a.
Proof.
  intros W A. unfold leval. f_equal. unfold wf_lc in W. induction (fst a) as [|[v k] l IH]; [reflexivity|]. inversion W; subst. cbn in *. rewrite IH by assumption. rewrite (A v) by assumption. reflexivity.
Qed.
Lemma wf_lvar n v : (v < n)%nat -> wf_lc n (@lvar F v). Proof. intros H. constructor; [exact H|constructor]. Qed.
Lemma wf_lconst n k : wf_lc n (lconst k). Proof. constructor. Qed.
Lemma wf_ladd n a b : wf_lc n a -> wf_lc n b -> wf_lc n (ladd a b). Proof. intros A B. unfold wf_lc, ladd. cbn. apply Forall_app. auto. Qed.
Lemma wf_lscale n k a : wf_lc n a -> wf_lc n (lscale k a).
Proof. unfold wf_lc, lscale. cbn. induction 1; cbn; constructor; auto. Qed.
Lemma wf_lsub n a b : wf_lc n a -> wf_lc n b -> wf_lc n (lsub a b). Proof. intros A B. apply wf_ladd; [exact A|now apply wf_lscale]. Qed.

(** Satisfaction. *)
Lemma sat_constrain (c : cs) (a : lc) (w : nat -> F) : sat (constrain a c) w <-> sat c w /\ leval w a = 0.
Proof. unfold sat, constrain. cbn [lin muls]. rewrite Forall_app. split; [intros [[A B] C]; inversion B; subst; tauto|]. intros [[A B] C]. auto. Qed.
Lemma sat_agree c w w' : good c -> agree (nv c) w w' -> sat c w -> sat c w'.
Proof.
  intros G A [H1 H2]. split.
  - pose proof (g_lin c G) as W. rewrite Forall_forall in *. intros a Ha. rewrite <- (leval_agree (nv c) w w' a); auto.
  - pose proof (g_mul c G) as W. rewrite Forall_forall in *. intros m Hm. specialize (W m Hm). destruct W as [? [? ?]]. rewrite <- !A by assumption. auto.
Qed.
Lemma good_constrain c a : good c -> wf_lc (nv c) a -> good (constrain a c).
Proof. intros [A B C D] W. constructor; cbn; auto. apply Forall_app. auto. Qed.
Lemma good_specify c k : good c -> wf_item (nv c) k -> good (specify k c).
Proof. intros [A B C D] W. constructor; cbn; auto. apply Forall_app. auto. Qed.
Lemma ext_refl c : ext c c. Proof. split; [lia|]. intros i _. reflexivity. Qed.
Lemma ext_trans a b c : ext a b -> ext b c -> ext a c.
Proof. intros [L A] [M B]. split; [lia|]. intros i Hi. rewrite B, A by lia. reflexivity. Qed.
Lemma ext_constrain c a : ext c (constrain a c). Proof. split; [cbn; lia|]. intros i _. reflexivity. Qed.
Lemma ext_specify c k : ext c (specify k c). Proof. split; [cbn; lia|]. intros i _. reflexivity. Qed.
Lemma good_grow c c' : good c -> lin c' = lin c -> defer c' = defer c -> (nv c <= nv c')%nat -> length (wit c') = nv c' ->
  Forall (wf_mul (nv c')) (muls c') -> good c'.
Proof.
  intros [A B C D] E1 E2 L W M. constructor; auto.
  - rewrite E1. revert B. apply Forall_impl. intros a. now apply wf_lc_le.
  - rewrite E2. revert D. apply Forall_impl. intros a. now apply wf_item_le.
Qed.
Lemma ext_grow (c c' : cs) s : good c -> wit c' = wit c ++ s -> (nv c <= nv c')%nat -> ext c c'.
Proof. intros G E L. split; [exact L|]. intros i Hi. unfold wval. rewrite E, app_nth1; [reflexivity|]. rewrite (g_wit c G). exact Hi. Qed.

(** ** Multiplication gates *)
Lemma alloc_mul_ok x y c : good c ->
  let c' := snd (allocate_multiplier x y c) in
  good c' /\ ext c c' /\ nv c' = (3 + nv c)%nat /\ defer c' = defer c /\ next c' = next c /\
  wval c' (nv c) = x /\ wval c' (S (nv c)) = y /\
  (forall w, sat c' w <-> sat c w /\ w (S (S (nv c))) = w (nv c) * w (S (nv c))) /\
  wval c' (S (S (nv c))) = x * y.
Proof.
  intros G. cbv zeta. unfold allocate_multiplier. cbn [snd]. set (c' := mkCs _ _ _ _ _ _).
  assert (V : forall k v, nth_error [x; y; x * y] k = Some v -> wval c' (k + nv c) = v).
  { intros k v E. unfold wval, c'. cbn [wit]. rewrite app_nth2; rewrite (g_wit c G); [|lia]. replace (k + nv c - nv c)%nat with k by lia. now apply nth_error_nth. }
  conj; try reflexivity.
  - apply (good_grow c); auto; unfold c'; cbn; [lia|rewrite app_length, (g_wit c G); cbn; lia|].
    apply Forall_app. split; [|constructor; [unfold wf_mul; cbn; lia|constructor]]. generalize (g_mul c G). apply Forall_impl. intros m. apply wf_mul_le. lia.
  - apply (ext_grow c c' [x; y; x * y]); auto; unfold c'; cbn; lia.
  - exact (V 0%nat x eq_refl).
  - exact (V 1%nat y eq_refl).
  - intros w. unfold sat, c'. cbn [lin muls]. rewrite Forall_app. split.
    + intros [A [B C]]. inversion C; subst. auto.
    + intros [[A B] C]. auto.
  - exact (V 2%nat (x * y) eq_refl).
Qed.
(** The same for a product of linear combinations. *)
Lemma multiply_ok a b c : good c -> wf_lc (nv c) a -> wf_lc (nv c) b ->
  let c' := snd (multiply a b c) in
  fst (multiply a b c) = (nv c, S (nv c), S (S (nv c))) /\
  good c' /\ ext c c' /\ nv c' = (3 + nv c)%nat /\ defer c' = defer c /\ next c' = next c /\
  (forall w, sat c' w <-> sat c w /\ w (nv c) = leval w a /\ w (S (nv c)) = leval w b /\ w (S (S (nv c))) = leval w a * leval w b) /\
  (sat c (wval c) -> sat c' (wval c')).
Proof.
  intros G Wa Wb. cbv zeta. unfold multiply. pose proof (alloc_mul_ok (leval (wval c) a) (leval (wval c) b) c G) as H. cbv zeta in H.
  unfold allocate_multiplier in *. cbn [fst snd] in *. set (c1 := mkCs _ _ _ _ _ _) in *. cbv zeta iota. cbn [fst snd].
  destruct H as [G1 [E1 [N1 [D1 [X1 [V0 [V1 [S1 V2]]]]]]]].
  set (c2 := constrain _ c1). set (c3 := constrain _ c2).
  assert (L : (nv c <= nv c1)%nat) by lia.
  assert (G2 : good c2) by (apply good_constrain; [exact G1|apply wf_lsub; [now apply (wf_lc_le (nv c))|apply wf_lvar; lia]]).
  assert (G3 : good c3) by (apply good_constrain; [exact G2|apply wf_lsub; [now apply (wf_lc_le (nv c))|apply wf_lvar; change (nv c2) with (nv c1); lia]]).
  assert (SI : forall w, sat c3 w <-> sat c w /\ w (nv c) = leval w a /\ w (S (nv c)) = leval w b /\ w (S (S (nv c))) = leval w a * leval w b).
  { intros w. unfold c3, c2. rewrite !sat_constrain, S1, !leval_sub, !leval_var. split.
    - intros [[[A B] C] D]. apply (proj1 (fsub_0 F _ _)) in C, D. rewrite C, D. conj; auto.
    - intros [A [B [C D]]]. rewrite B, C. conj; auto; try ring. }
  conj; auto.
  - intros Sc. apply SI. change (wval c3) with (wval c1).
    assert (Ea : leval (wval c1) a = leval (wval c) a) by (apply (leval_agree (nv c)); [exact Wa|apply E1]).
    assert (Eb : leval (wval c1) b = leval (wval c) b) by (apply (leval_agree (nv c)); [exact Wb|apply E1]).
    rewrite Ea, Eb. conj; auto. apply (sat_agree c (wval c)); [exact G| |exact Sc]. intros i Hi. symmetry. now apply E1.
Qed.

(** ** The second phase *)
Notation rec := (record_at (F := F)).
Lemma rec_agree n w w' v : wf_var n v -> agree n w w' -> rec w v = rec w' v.
Proof. intros [A B] E. unfold record_at. now rewrite !E. Qed.
(** A closure under given challenges. *)
Definition item_at (w : nat -> F) (x1 x2 x3 : F) (k : later) : Prop :=
  match k with
  | LGate a b c d => gate_prod (rec w a) (rec w b) (rec w c) (rec w d) x1 x2 x3 = 0
  | LShuffle l => prod_at (map (fun p => single x1 (rec w (fst p))) l) x2 = prod_at (map (fun p => single x1 (rec w (snd p))) l) x2
  end.
Definition draws (k : later) : nat := match k with LGate _ _ _ _ => 3 | LShuffle _ => 2 end.
Lemma item_agree n w w' x1 x2 x3 k : wf_item n k -> agree n w w' -> item_at w x1 x2 x3 k -> item_at w' x1 x2 x3 k.
Proof.
  intros W A. destruct k as [a b c d|l]; cbn in *.
  - destruct W as [W1 [W2 [W3 W4]]]. now rewrite <- (rec_agree n w w' a), <- (rec_agree n w w' b), <- (rec_agree n w w' c), <- (rec_agree n w w' d).
  - destruct W as [_ W]. rewrite Forall_forall in W. intros E.
    replace (map (fun p => single x1 (rec w' (fst p))) l) with (map (fun p => single x1 (rec w (fst p))) l)
      by (apply map_ext_in; intros p Hp; f_equal; apply (rec_agree n); [apply W, Hp|exact A]).
    replace (map (fun p => single x1 (rec w' (snd p))) l) with (map (fun p => single x1 (rec w (snd p))) l)
      by (apply map_ext_in; intros p Hp; f_equal; apply (rec_agree n); [apply W, Hp|exact A]). exact E.
Qed.
(** Reading a challenge changes nothing else. *)
Lemma good_challenge ch c : good c -> good (snd (challenge ch c)). Proof. intros [A B C D]. now constructor. Qed.

(** Products. *)
Lemma chain_ok z : forall l prev c, good c -> (prev < nv c)%nat -> Forall (fun v => (v < nv c)%nat) l ->
  let c' := snd (product_chain z prev l c) in let o := fst (product_chain z prev l c) in
  good c' /\ ext c c' /\ (o < nv c')%nat /\ defer c' = defer c /\ next c' = next c /\
  (forall w, sat c' w -> sat c w /\ w o = w prev * fprod (map (fun v => w v - z) l)) /\
  (sat c (wval c) -> sat c' (wval c')).
Proof.
  induction l as [|v l IH]; intros prev c G Hp Hl; cbn [product_chain fst snd].
  - conj; auto; try apply ext_refl. intros w Sw. split; [exact Sw|]. cbn [map]. rewrite fprod_nil. ring.
  - inversion Hl as [|? ? Hv Hl']; subst.
    destruct (multiply_ok (lvar prev) (lsub (lvar v) (lconst z)) c G) as [E [G1 [E1 [N1 [D1 [X1 [S1 C1]]]]]]]; [now apply wf_lvar|apply wf_lsub; [now apply wf_lvar|apply wf_lconst]|].
    destruct (multiply (lvar prev) (lsub (lvar v) (lconst z)) c) as [[[l0 r0] o0] c1]. cbn [fst snd] in *. injection E as -> -> ->.
    destruct (IH (S (S (nv c))) c1 G1) as [G2 [E2 [L2 [D2 [X2 [S2 C2]]]]]]; [lia|revert Hl'; apply Forall_impl; intros; lia|]. cbv zeta in *.
    conj; auto; try congruence; try (eapply ext_trans; eauto).
    intros w H. apply S2 in H. split; [destruct H as [H _]; apply S1 in H; tauto|].
     destruct H as [H E]. apply S1 in H. destruct H as [_ [_ [_ Ho]]]. rewrite E, Ho. cbn [map]. rewrite fprod_cons, leval_sub, !leval_var, leval_const. ring.
Qed.
Lemma product_ok z l c : good c -> (2 <= length l)%nat -> Forall (fun v => (v < nv c)%nat) l ->
  let c' := snd (product_of z l c) in let o := fst (product_of z l c) in
  good c' /\ ext c c' /\ (o < nv c')%nat /\ defer c' = defer c /\ next c' = next c /\
  (forall w, sat c' w -> sat c w /\ w o = prod_at (map w l) z) /\
  (sat c (wval c) -> sat c' (wval c')).
Proof.
  intros G L Hl. unfold product_of. assert (P : Permutation (rev l) l) by (apply Permutation_sym, Permutation_rev).
  assert (Hr : Forall (fun v => (v < nv c)%nat) (rev l)) by (now apply Forall_rev).
  assert (Lr : length (rev l) = length l) by apply rev_length.
  destruct (rev l) as [|a [|b r]]; [cbn in Lr; lia|cbn in Lr; lia|].
  inversion Hr as [|? ? Ha Hr1]; subst. inversion Hr1 as [|? ? Hb Hr2]; subst.
  destruct (multiply_ok (lsub (lvar a) (lconst z)) (lsub (lvar b) (lconst z)) c G) as [E [G1 [E1 [N1 [D1 [X1 [S1 C1]]]]]]];
    [apply wf_lsub; [now apply wf_lvar|apply wf_lconst]|apply wf_lsub; [now apply wf_lvar|apply wf_lconst]|].
  destruct (multiply (lsub (lvar a) (lconst z)) (lsub (lvar b) (lconst z)) c) as [[[l0 r0] o0] c1]. cbn [fst snd] in *. injection E as -> -> ->.
  destruct (chain_ok z r (S (S (nv c))) c1 G1) as [G2 [E2 [L2 [D2 [X2 [S2 C2]]]]]]; [lia|revert Hr2; apply Forall_impl; intros; lia|]. cbv zeta in *.
  conj; auto; try congruence; try (eapply ext_trans; eauto).
  intros w H. apply S2 in H. split; [destruct H as [H _]; apply S1 in H; tauto|].
   destruct H as [H E]. apply S1 in H. destruct H as [_ [_ [_ Ho]]]. rewrite E, Ho, !leval_sub, !leval_var, leval_const.
    transitivity (prod_at (map w (a :: b :: r)) z); [unfold prod_at; cbn [map]; rewrite !fprod_cons, map_map; ring|].
    unfold prod_at. apply fprod_perm. now do 2 apply Permutation_map.
Qed.
Lemma singles_ok k : forall l c, good c -> Forall (fun p => wf_var (nv c) (fst p) /\ wf_var (nv c) (snd p)) l ->
  let r := singles k l c in let c' := snd r in
  good c' /\ ext c c' /\ defer c' = defer c /\ next c' = next c /\
  length (fst (fst r)) = length l /\ length (snd (fst r)) = length l /\
  Forall (fun v => (v < nv c')%nat) (fst (fst r)) /\ Forall (fun v => (v < nv c')%nat) (snd (fst r)) /\
  (forall w, sat c' w -> sat c w /\ map w (fst (fst r)) = map (fun p => single k (rec w (fst p))) l /\ map w (snd (fst r)) = map (fun p => single k (rec w (snd p))) l) /\
  (sat c (wval c) -> sat c' (wval c')).
Proof.
  induction l as [|[a b] l IH]; intros c G W; cbn [singles fst snd].
  - conj; auto; try apply ext_refl.
  - inversion W as [|? ? [Wa Wb] W']; subst. cbn [fst snd] in Wa, Wb. destruct Wa as [Wa1 Wa2], Wb as [Wb1 Wb2].
    match goal with |- context [multiply ?p ?q c] => destruct (multiply_ok p q c G) as [E [G1 [E1 [N1 [D1 [X1 [S1 C1]]]]]]];
      [apply wf_ladd; [now apply wf_lvar|now apply wf_lscale, wf_lvar]|apply wf_ladd; [now apply wf_lvar|now apply wf_lscale, wf_lvar]|];
      destruct (multiply p q c) as [[[l0 r0] o0] c1] end.
    cbn [fst snd] in *. injection E as -> -> ->.
    destruct (IH c1 G1) as [G2 [E2 [D2 [X2 [L1 [L2 [F1 [F2 [S2 C2]]]]]]]]]; [revert W'; apply Forall_impl; intros p; unfold wf_var; lia|]. cbv zeta in *.
    destruct (singles k l c1) as [[xs ys] c2]. cbn [fst snd] in *.
    assert (NL : (nv c1 <= nv c2)%nat) by (destruct E2; assumption).
    conj; auto; try congruence; try (eapply ext_trans; eauto); try (cbn; congruence); try (constructor; [lia|assumption]).
    intros w H. apply S2 in H. conj; [destruct H as [H _]; apply S1 in H; tauto| |].
    + destruct H as [H [A B]]. apply S1 in H. cbn [map]. f_equal; [|exact A]. destruct H as [_ [-> _]]. rewrite leval_add, leval_scale, !leval_var. reflexivity.
    + destruct H as [H [A B]]. apply S1 in H. cbn [map]. f_equal; [|exact B]. destruct H as [_ [_ [-> _]]]. rewrite leval_add, leval_scale, !leval_var. reflexivity.
Qed.

(** One closure. *)
Lemma run_ok ch c k : good c -> wf_item (nv c) k ->
  let c' := run_later ch c k in let x i := ch (i + next c)%nat in
  good c' /\ ext c c' /\ next c' = (draws k + next c)%nat /\ 
  (forall w, sat c' w -> sat c w /\ item_at w (x 0%nat) (x 1%nat) (x 2%nat) k) /\
  (sat c (wval c) -> item_at (wval c) (x 0%nat) (x 1%nat) (x 2%nat) k -> sat c' (wval c')).
Proof.
  intros G W. cbv zeta. destruct k as [i1 i2 o1 o2|l].
  - cbn [run_later challenge next]. cbn [nv wit lin muls defer next]. set (c3 := mkCs _ _ _ _ _ _).
    set (x1 := ch (next c)). set (x2 := ch (S (next c))). set (x3 := ch (S (S (next c)))).
    assert (G3 : good c3) by (destruct G; now constructor).
    destruct W as [[Wa Wa'] [[Wb Wb'] [[Wc Wc'] [Wd Wd']]]].
    assert (W1 : wf_lc (nv c3) (gate_left i1 i2 o1 o2 x1 x2 x3)).
    { unfold gate_left, msub_. repeat (apply wf_ladd || apply wf_lscale || apply wf_lsub || apply wf_lvar); assumption. }
    assert (W2 : wf_lc (nv c3) (gate_right i1 i2 o1 o2 x1 x2 x3)).
    { unfold gate_right, msub_. repeat (apply wf_ladd || apply wf_lscale || apply wf_lsub || apply wf_lvar); assumption. }
    destruct (multiply_ok _ _ c3 G3 W1 W2) as [E [G4 [E4 [N4 [D4 [X4 [S4 C4]]]]]]].
    destruct (multiply (gate_left i1 i2 o1 o2 x1 x2 x3) (gate_right i1 i2 o1 o2 x1 x2 x3) c3) as [[[l0 r0] o0] c4]. cbn [fst snd] in *. injection E as -> -> ->.
    assert (V : forall w, leval w (gate_left i1 i2 o1 o2 x1 x2 x3) * leval w (gate_right i1 i2 o1 o2 x1 x2 x3) = gate_prod (rec w i1) (rec w i2) (rec w o1) (rec w o2) x1 x2 x3).
    { intros w. unfold gate_left, gate_right, msub_, gate_prod, form, record_at. cbn [amount atype].
      repeat rewrite ?leval_add, ?leval_scale, ?leval_sub, ?leval_var. ring. }
    conj.
    + apply good_constrain; [exact G4|apply wf_lvar; rewrite N4; apply Nat.lt_succ_diag_r].
    + exact E4.
    + cbn. rewrite X4. reflexivity.
    + intros w H. apply sat_constrain in H. destruct H as [H Z]. split; [apply S4 in H; exact (proj1 H)|]. apply S4 in H. destruct H as [_ [_ [_ Ho]]]. rewrite leval_var in Z. cbn [item_at].
      change (ch (0 + next c)%nat) with x1. change (ch (1 + next c)%nat) with x2. change (ch (2 + next c)%nat) with x3. rewrite <- V, <- Ho. exact Z.
    + intros Sc I. apply sat_constrain. assert (Q : sat c4 (wval c4)) by (apply C4; exact Sc). split; [exact Q|].
      apply S4 in Q. destruct Q as [_ [_ [_ Ho]]]. rewrite leval_var. etransitivity; [exact Ho|]. rewrite V.
      cbn [item_at] in I. change (ch (0 + next c)%nat) with x1 in I. change (ch (1 + next c)%nat) with x2 in I. change (ch (2 + next c)%nat) with x3 in I.
      change (wval c) with (wval c3) in I. destruct E4 as [_ E4].
      rewrite !(rec_agree (nv c3) (wval c4) (wval c3)); auto; split; assumption.
  - cbn [run_later challenge]. set (k := ch (next c)). set (c1 := mkCs _ _ _ _ _ _).
    assert (G1 : good c1) by (destruct G; now constructor). destruct W as [L2 W].
    destruct (singles_ok k l c1 G1 W) as [G2 [E2 [D2 [X2 [La [Lb [Fa [Fb [S2 C2]]]]]]]]]. cbv zeta in *.
    destruct (singles k l c1) as [[xs ys] c2]. cbn [fst snd] in *.
    unfold list_shuffle. destruct xs as [|x0 [|x1 xs]]; [cbn in La; lia|cbn in La; lia|].
    set (X := x0 :: x1 :: xs) in *. cbn [challenge]. set (z := ch (next c2)). set (c3 := mkCs (nv c2) _ _ _ _ _).
    assert (G3 : good c3) by (destruct G2; now constructor).
    destruct (product_ok z X c3 G3) as [G4 [E4 [O4 [D4 [X4 [S4 C4]]]]]]; [unfold X in *; cbn [length] in *; lia|exact Fa|]. cbv zeta in *.
    destruct (product_of z X c3) as [o4 c4]. cbn [fst snd] in *.
    assert (NL : (nv c3 <= nv c4)%nat) by (destruct E4; assumption).
    destruct (product_ok z ys c4 G4) as [G5 [E5 [O5 [D5 [X5 [S5 C5]]]]]]; [lia|revert Fb; apply Forall_impl; intros v Hv; change (nv c2) with (nv c3) in Hv; lia|]. cbv zeta in *.
    destruct (product_of z ys c4) as [o5 c5]. cbn [fst snd] in *.
    assert (NL5 : (nv c4 <= nv c5)%nat) by (destruct E5; assumption).
    assert (EX : ext c c5).
    { apply (ext_trans c c2); [exact E2|]. apply (ext_trans c2 c4); [exact E4|exact E5]. }
    assert (ZZ : z = ch (1 + next c)%nat) by (unfold z; rewrite X2; reflexivity).
    assert (K : forall w, sat c5 w -> sat c w /\ w o4 = prod_at (map (fun p => single k (rec w (fst p))) l) z /\ w o5 = prod_at (map (fun p => single k (rec w (snd p))) l) z).
    { intros w Sw. apply S5 in Sw. destruct Sw as [Sw H5]. apply S4 in Sw. destruct Sw as [Sw H4]. change (sat c3 w) with (sat c2 w) in Sw. apply S2 in Sw. destruct Sw as [Sw [M1 M2]].
      rewrite M1 in H4. rewrite M2 in H5. auto. }
    conj.
    + apply good_constrain; [exact G5|]. apply wf_lsub; apply wf_lvar; lia.
    + exact EX.
    + cbn. rewrite X5, X4. cbn. rewrite X2. reflexivity.
    + intros w H. apply sat_constrain in H. destruct H as [H Z]. split; [apply K in H; tauto|]. apply K in H. destruct H as [_ [H4 H5]]. rewrite leval_sub, !leval_var in Z. cbn [item_at].
      apply (proj1 (fsub_0 F _ _)) in Z. change (ch (0 + next c)%nat) with k. rewrite <- ZZ, <- H4, <- H5. exact Z.
    + intros Sc I. assert (Q : sat c5 (wval c5)) by (apply C5, C4; apply C2; exact Sc). apply sat_constrain. split; [exact Q|].
      apply K in Q. destruct Q as [_ [H4 H5]]. rewrite leval_sub, !leval_var. change (wval (constrain _ c5)) with (wval c5). rewrite H4, H5.
      apply (item_agree (nv c) (wval c) (wval c5)) in I; [|split; [exact L2|exact W]|intros i Hi; symmetry; now apply EX].
      cbn [item_at] in I. change (ch (0 + next c)%nat) with k in I. rewrite <- ZZ in I. rewrite I. ring.
Qed.

(** All closures: an item's challenges start after those of the items before it. *)
Fixpoint drawn (l : list later) : nat := match l with [] => 0 | k :: l' => (draws k + drawn l')%nat end.
Lemma run_all ch : forall items c, good c -> Forall (wf_item (nv c)) items ->
  let c' := fold_left (run_later ch) items c in
  good c' /\ ext c c' /\
  (forall w, sat c' w -> sat c w /\ forall pre k post, items = pre ++ k :: post ->
     let x i := ch (i + (drawn pre + next c))%nat in item_at w (x 0%nat) (x 1%nat) (x 2%nat) k) /\
  (sat c (wval c) -> (forall k x1 x2 x3, In k items -> item_at (wval c) x1 x2 x3 k) -> sat c' (wval c')).
Proof.
  induction items as [|k items IH]; intros c G W; cbn [fold_left].
  - conj; auto; try apply ext_refl. intros w Sw. split; [exact Sw|]. intros [|? ?] ? ? Q; discriminate Q.
  - inversion W as [|? ? Wk W']; subst. destruct (run_ok ch c k G Wk) as [G1 [E1 [X1 [S1 C1]]]]. cbv zeta in *.
    assert (W1 : Forall (wf_item (nv (run_later ch c k))) items) by (revert W'; apply Forall_impl; intros q; apply wf_item_le; apply E1).
    destruct (IH (run_later ch c k) G1 W1) as [G2 [E2 [S2 C2]]]. conj; auto; try (eapply ext_trans; eauto).
    + intros w H. apply S2 in H. split; [destruct H as [H _]; now apply S1 in H|]. intros pre q post E. destruct H as [H I]. destruct pre as [|q0 pre]; cbn in E; injection E as -> ->.
      * apply S1 in H. exact (proj2 H).
      * specialize (I pre q post eq_refl). cbn [drawn]. rewrite X1 in I. cbv zeta in I.
        replace (draws q0 + drawn pre + next c)%nat with (drawn pre + (draws q0 + next c))%nat by lia. exact I.
    + intros Sc I. apply C2.
      * apply C1; [exact Sc|]. apply I. now left.
      * intros q x1 x2 x3 Hq. apply (item_agree (nv c) (wval c)); [rewrite Forall_forall in W'; auto|intros i Hi; symmetry; now apply E1|]. apply I. now right.
Qed.

(** ** What the two phases accept *)
(** Every closure under all challenges of a set. *)
Definition item_all (C : F -> Prop) (w : nat -> F) (k : later) : Prop :=
  forall x1 x2 x3, C x1 -> C x2 -> C x3 -> item_at w x1 x2 x3 k.
Lemma finish_sound (C : F -> Prop) c w (x0 : F) : good c -> C x0 ->
  (forall ch, (forall i, C (ch i)) -> exists w', (forall i, (i < nv c)%nat -> w' i = w i) /\ sat (finish ch c) w') ->
  sat c w /\ Forall (item_all C w) (defer c).
Proof.
  intros G C0 H. split.
  - destruct (H (fun _ => x0) ltac:(auto)) as [w' [A S]]. destruct (run_all (fun _ => x0) (defer c) c G (g_def c G)) as [_ [_ [S2 _]]].
    apply S2 in S. destruct S as [S _]. exact (sat_agree c w' w G A S).
  - apply Forall_forall. intros k Hk x1 x2 x3 C1 C2 C3. apply in_split in Hk. destruct Hk as [pre [post E]].
    pose (o := (drawn pre + next c)%nat).
    pose (ch := fun i => if Nat.eqb i o then x1 else if Nat.eqb i (1 + o) then x2 else if Nat.eqb i (2 + o) then x3 else x0).
    destruct (H ch) as [w' [A S]]; [intros i; unfold ch; destruct (Nat.eqb i o), (Nat.eqb i (1 + o)), (Nat.eqb i (2 + o)); assumption|].
    destruct (run_all ch (defer c) c G (g_def c G)) as [_ [_ [S2 _]]]. apply S2 in S. destruct S as [_ I].
    specialize (I pre k post E). cbv zeta in I. fold o in I. apply (item_agree (nv c) w'); [pose proof (g_def c G) as D; rewrite E in D; apply Forall_app in D; destruct D as [_ D]; now inversion D|exact A|].
    assert (K0 : ch (0 + o)%nat = x1) by (unfold ch; cbn [plus]; now rewrite Nat.eqb_refl).
    assert (K1 : ch (1 + o)%nat = x2) by (unfold ch; destruct (Nat.eqb_spec (1 + o) o); [lia|]; now rewrite Nat.eqb_refl).
    assert (K2 : ch (2 + o)%nat = x3) by (unfold ch; destruct (Nat.eqb_spec (2 + o) o); [lia|]; destruct (Nat.eqb_spec (2 + o) (1 + o)); [lia|]; now rewrite Nat.eqb_refl).
    change (item_at w' (ch (0 + o)%nat) (ch (1 + o)%nat) (ch (2 + o)%nat) k) in I. rewrite K0, K1, K2 in I. exact I.
Qed.
Lemma finish_complete ch c : good c -> sat c (wval c) -> Forall (item_all (fun _ => True) (wval c)) (defer c) ->
  sat (finish ch c) (wval (finish ch c)) /\ ext c (finish ch c).
Proof.
  intros G S I. destruct (run_all ch (defer c) c G (g_def c G)) as [_ [E [_ C]]]. split; [|exact E]. apply C; [exact S|].
  intros k x1 x2 x3 Hk. rewrite Forall_forall in I. now apply I.
Qed.

(** Only the shape matters. *)
Lemma shape_mul (a b : lc) (c c' : cs) : same_shape c c' -> fst (multiply a b c) = fst (multiply a b c') /\ same_shape (snd (multiply a b c)) (snd (multiply a b c')).
Proof. intros [A [B [C [D E]]]]. unfold multiply, allocate_multiplier, constrain, same_shape. cbn. rewrite A, B, C, D, E. auto 10. Qed.
Lemma shape_con (a : lc) (c c' : cs) : same_shape c c' -> same_shape (constrain a c) (constrain a c').
Proof. intros [A [B [C [D E]]]]. unfold constrain, same_shape. cbn. rewrite A, B, C, D, E. auto. Qed.
Lemma shape_chal (ch : nat -> F) (c c' : cs) : same_shape c c' -> fst (challenge ch c) = fst (challenge ch c') /\ same_shape (snd (challenge ch c)) (snd (challenge ch c')).
Proof. intros [A [B [C [D E]]]]. unfold challenge, same_shape. cbn. rewrite A, B, C, D, E. auto 10. Qed.
Ltac shm H c1 c2 := 
  match goal with
  | |- context [multiply ?a ?b c1] => let X := fresh in let Y := fresh in destruct (shape_mul a b c1 c2 H) as [X Y]; destruct (multiply a b c1) as [[[? ?] ?] ?], (multiply a b c2) as [[[? ?] ?] ?]; cbn [fst snd] in X, Y; injection X as -> -> ->
  end.
Lemma shape_chain (z : F) : forall l prev (c c' : cs), same_shape c c' -> fst (product_chain z prev l c) = fst (product_chain z prev l c') /\ same_shape (snd (product_chain z prev l c)) (snd (product_chain z prev l c')).
Proof. induction l as [|v l IH]; intros prev c c' H; cbn [product_chain]; [auto|]. shm H c c'. now apply IH. Qed.
Lemma shape_product (z : F) l (c c' : cs) : same_shape c c' -> fst (product_of z l c) = fst (product_of z l c') /\ same_shape (snd (product_of z l c)) (snd (product_of z l c')).
Proof. intros H. unfold product_of. destruct (rev l) as [|a [|b r]]; auto. shm H c c'. now apply shape_chain. Qed.
Lemma shape_singles (k : F) : forall l (c c' : cs), same_shape c c' -> fst (singles k l c) = fst (singles k l c') /\ same_shape (snd (singles k l c)) (snd (singles k l c')).
Proof.
  induction l as [|[a b] l IH]; intros c c' H; cbn [singles]; [auto|]. shm H c c'.
  match goal with Y : same_shape ?p ?q |- context [singles k l ?p] => destruct (IH p q Y) as [E S]; destruct (singles k l p) as [[? ?] ?], (singles k l q) as [[? ?] ?] end.
  cbn [fst snd] in *. injection E as -> ->. auto.
Qed.
Lemma shape_run (ch : nat -> F) k (c c' : cs) : same_shape c c' -> same_shape (run_later ch c k) (run_later ch c' k).
Proof.
  intros H. destruct k as [i1 i2 o1 o2|l]; cbn [run_later].
  - destruct (shape_chal ch c c' H) as [E1 H1]. destruct (challenge ch c) as [x1 c1], (challenge ch c') as [y1 d1]. cbn [fst snd] in *. subst y1.
    destruct (shape_chal ch c1 d1 H1) as [E2 H2]. destruct (challenge ch c1) as [x2 c2], (challenge ch d1) as [y2 d2]. cbn [fst snd] in *. subst y2.
    destruct (shape_chal ch c2 d2 H2) as [E3 H3]. destruct (challenge ch c2) as [x3 c3], (challenge ch d2) as [y3 d3]. cbn [fst snd] in *. subst y3.
    shm H3 c3 d3. now apply shape_con.
  - destruct (shape_chal ch c c' H) as [E1 H1]. destruct (challenge ch c) as [x1 c1], (challenge ch c') as [y1 d1]. cbn [fst snd] in *. subst y1.
    destruct (shape_singles x1 l c1 d1 H1) as [E2 H2]. destruct (singles x1 l c1) as [[xs ys] c2], (singles x1 l d1) as [[xs' ys'] d2]. cbn [fst snd] in *. injection E2 as <- <-.
    unfold list_shuffle. assert (G : same_shape (let (z, c3) := challenge ch c2 in let (x, c4) := product_of z xs c3 in let (y, c5) := product_of z ys c4 in constrain (lsub (lvar x) (lvar y)) c5)
      (let (z, c3) := challenge ch d2 in let (x, c4) := product_of z xs c3 in let (y, c5) := product_of z ys c4 in constrain (lsub (lvar x) (lvar y)) c5)).
    { destruct (shape_chal ch c2 d2 H2) as [E3 H3]. destruct (challenge ch c2) as [z c3], (challenge ch d2) as [z' d3]. cbn [fst snd] in *. subst z'.
      destruct (shape_product z xs c3 d3 H3) as [E4 H4]. destruct (product_of z xs c3) as [o4 c4], (product_of z xs d3) as [o4' d4]. cbn [fst snd] in *. subst o4'.
      destruct (shape_product z ys c4 d4 H4) as [E5 H5]. destruct (product_of z ys c4) as [o5 c5], (product_of z ys d4) as [o5' d5]. cbn [fst snd] in *. subst o5'. now apply shape_con. }
    destruct xs as [|x [|x' xs]]; [exact H2| |exact G]. destruct ys as [|y ys]; [exact G|]. now apply shape_con.
Qed.
Lemma shape_finish (ch : nat -> F) (c c' : cs) : same_shape c c' -> same_shape (finish ch c) (finish ch c').
Proof.
  intros H. unfold finish. assert (E : defer c = defer c') by apply H. rewrite <- E. generalize (defer c). intros l. revert c c' H E.
  induction l as [|k l IH]; intros c c' H E; cbn [fold_left]; [exact H|]. assert (Q := shape_run ch k c c' H). apply IH; [exact Q|apply Q].
Qed.
Lemma shape_sat (c c' : cs) (w : nat -> F) : same_shape c c' -> sat c w <-> sat c' w.
Proof. intros [_ [A [B _]]]. unfold sat. now rewrite A, B. Qed.
(** Completion of an assignment of the first phase. *)
Lemma finish_extend (c : cs) (w ch : nat -> F) : good c -> sat c w -> Forall (item_all (fun _ => True) w) (defer c) ->
  exists w', (forall i, (i < nv c)%nat -> w' i = w i) /\ sat (finish ch c) w'.
Proof.
  intros G S I. pose (c0 := mkCs (nv c) (map w (seq 0 (nv c))) (lin c) (muls c) (defer c) (next c)).
  assert (Sh : same_shape c0 c) by (repeat split).
  assert (A : agree (nv c) w (wval c0)).
  { intros i Hi. unfold wval, c0. cbn [wit]. rewrite (nth_indep _ 0 (w 0%nat)) by (rewrite map_length, seq_length; exact Hi). rewrite map_nth, seq_nth by exact Hi. reflexivity. }
  assert (G0 : good c0) by (destruct G; constructor; auto; cbn; now rewrite map_length, seq_length).
  destruct (finish_complete ch c0 G0) as [S' [_ E']].
  - apply (sat_agree c0 w); auto.
  - pose proof (g_def c G) as W. rewrite Forall_forall in *. intros k Hk x1 x2 x3 _ _ _. apply (item_agree (nv c) w); [apply W, Hk|exact A|]. now apply (I k Hk).
  - exists (wval (finish ch c0)). split; [intros i Hi; rewrite E' by exact Hi; symmetry; now apply A|].
    apply (shape_sat _ _ _ (shape_finish ch c0 c Sh)). exact S'.
Qed.
End System.
