(** Correctness of the bucketed multi-exponentiation for points in general position. *)
From Coq Require Import List ZArith Bool Lia ZifyBool ZifyNat Field Ring.
From Verif Require Import Base Field PField MsmSpec MsmProofs BucketModel BucketSpec BucketCurve.
Import ListNotations.

Lemma subseq_refl {T} (l : list T) : subseq l l.
Proof. induction l; [constructor|apply sub_take; assumption]. Qed.
Lemma subseq_trans {T} (a b c : list T) : subseq a b -> subseq b c -> subseq a c.
Proof.
  intros H1 H2. revert a H1. induction H2 as [m|x l m H IH|x l m H IH]; intros a H1.
  - inversion H1; constructor.
  - constructor. now apply IH.
  - inversion H1; subst; [constructor|apply sub_skip; now apply IH|apply sub_take; now apply IH].
Qed.
Lemma subseq_mid {T} (l a r : list T) : subseq a (l ++ a ++ r).
Proof.
  induction l as [|x l IH]; cbn; [|now constructor]. induction a as [|x a IH]; cbn; [constructor|]. apply sub_take, IH.
Qed.
Lemma subseq_app {T} (a b : list T) x : subseq a b -> subseq (a ++ [x]) (b ++ [x]).
Proof. induction 1 as [m|y l m H IH|y l m H IH]; cbn; [|apply sub_skip; exact IH|apply sub_take; exact IH]. induction m; cbn; [apply sub_take; constructor|apply sub_skip; assumption]. Qed.
Lemma subseq_skipr {T} (a b : list T) x : subseq a b -> subseq a (b ++ [x]).
Proof. induction 1; cbn; [constructor|apply sub_skip; assumption|apply sub_take; assumption]. Qed.
Lemma subseq_length {T} (a b : list T) : subseq a b -> (length a <= length b)%nat.
Proof. induction 1; cbn; lia. Qed.

Section Proofs.
Context {K : Field} {F : PField} {M : Mod F} (C : Curve K F M).
Add Field Fb : (f_th F).
Local Open Scope M_scope.
Implicit Types (qs : list (affine K)) (gs : list (list M)).
Notation zs z a := (smul (fofZ (F := F) z) a).

Lemma sum_app (a b : list M) : sum_of (a ++ b) = sum_of a + sum_of b.
Proof. induction a as [|x a IH]; cbn [app sum_of fold_right]; [symmetry; apply madd_0|]. fold (sum_of (a ++ b)) (sum_of a). rewrite IH. module_eq. Qed.

(** ** One bucket *)
Definition nice (L : list M) : Prop :=
  (forall l A r, L = l ++ A ++ r -> A <> [] -> sum_of A <> m0) /\
  (forall l A B r, L = l ++ (A ++ B) ++ r -> A <> [] -> B <> [] -> sum_of A <> sum_of B /\ sum_of A <> - sum_of B).
Lemma general_nice ps L : general_position ps -> subseq L ps -> nice L.
Proof.
  intros [G0 G] H. split.
  - intros l A r E NE. destruct A as [|a A]; [contradiction|]. assert (S1 : subseq (a :: A) ps) by (eapply subseq_trans; [|exact H]; rewrite E; apply subseq_mid). destruct A as [|a' A].
    + cbn. rewrite madd_0_r. intros ->. apply G0. clear - S1. remember [m0] as l0. induction S1; try discriminate; [right; auto|injection Heql0 as -> ->; now left].
    + destruct (G [a] (a' :: A) ltac:(discriminate) ltac:(discriminate) S1) as [_ N]. intros Q. apply N. cbn [sum_of fold_right] in *. rewrite madd_0_r. fold (sum_of (a' :: A)) in *. change (a + (a' + fold_right madd m0 A)) with (a + sum_of (a' :: A)) in Q. change (a' + fold_right madd m0 A) with (sum_of (a' :: A)). apply (madd_cancel (sum_of (a' :: A))). rewrite madd_opp, madd_comm. exact Q.
  - intros l A B r E NA NB. apply G; auto. eapply subseq_trans; [|exact H]. rewrite E. apply subseq_mid.
Qed.
Lemma nice_part l A r : nice (l ++ A ++ r) -> nice A.
Proof.
  intros [H1 H2]. split.
  - intros l' A' r' -> NE. apply (H1 (l ++ l') A' (r' ++ r)); [|exact NE]. rewrite <- !app_assoc. reflexivity.
  - intros l' A' B' r' -> N1 N2. apply (H2 (l ++ l') A' B' (r' ++ r)); auto. rewrite <- !app_assoc. reflexivity.
Qed.
Definition blocks qs gs : Prop := Forall2 (fun q g => affine_is C q (sum_of g) /\ g <> []) qs gs.
Lemma blocks_length qs gs : blocks qs gs -> length qs = length gs /\ (length gs <= length (concat gs))%nat.
Proof. induction 1 as [|q g qs gs [_ NE] _ [IH1 IH2]]; [split; auto|]. cbn [length concat]. rewrite app_length. destruct g; [contradiction|]. cbn [length]. lia. Qed.
Lemma chunks2_ok : forall n qs gs, length qs = (2 * n)%nat -> blocks qs gs -> nice (concat gs) -> exists gs', blocks (chunks2 qs) gs' /\ concat gs' = concat gs /\ length (chunks2 qs) = n.
Proof.
  induction n as [|n IH]; intros qs gs L B N.
  - destruct qs; [|discriminate]. inversion B; subst. exists []. repeat split. constructor.
  - destruct qs as [|q1 [|q2 qs]]; [discriminate|cbn in L; lia|]. inversion B as [|? g1 ? gs1 [H1 NE1] B1]; subst. inversion B1 as [|? g2 ? gs2 [H2 NE2] B2]; subst. cbn [concat] in N.
    destruct (IH qs gs2 ltac:(cbn in L; lia) B2) as [gs' [A1 [A2 A3]]].
    { apply (nice_part (g1 ++ g2) _ []). rewrite app_nil_r, <- app_assoc. exact N. }
    exists ((g1 ++ g2) :: gs'). cbn [chunks2 concat length]. rewrite A2, A3, <- app_assoc. split; [|split; reflexivity]. constructor; [|exact A1]. split; [|destruct g1; [contradiction|discriminate]].
    rewrite sum_app. destruct N as [N0 N1]. destruct (N1 [] g1 g2 (concat gs2) ltac:(cbn; now rewrite <- app_assoc) NE1 NE2) as [X1 X2].
    assert (Z1 : sum_of g1 <> m0) by (apply (N0 [] g1 (g2 ++ concat gs2)); auto). assert (Z2 : sum_of g2 <> m0) by (apply (N0 g1 g2 (concat gs2)); auto).
    apply affine_add_is; auto; [exact (finite_is C q1 _ H1 Z1)|exact (finite_is C q2 _ H2 Z2)].
Qed.
Lemma halve_ok qs gs : blocks qs gs -> nice (concat gs) -> exists gs', blocks (halve qs) gs' /\ concat gs' = concat gs /\ (2 * length (halve qs) <= length qs + 1)%nat.
Proof.
  intros B N. unfold halve. destruct (Nat.odd (length qs)) eqn:O.
  - apply Nat.odd_spec in O. destruct O as [n O]. destruct qs as [|q qs]; [cbn in O; lia|]. inversion B as [|? g ? gs1 H B1]; subst. cbn [firstn skipn app concat length] in *.
    destruct (chunks2_ok n qs gs1 ltac:(lia) B1) as [gs' [A1 [A2 A3]]]; [apply (nice_part g _ []); rewrite app_nil_r; exact N|]. exists (g :: gs'). split; [constructor; assumption|]. cbn [concat]. rewrite A2. split; [reflexivity|lia].
  - assert (E : Nat.even (length qs) = true) by (rewrite <- Nat.negb_odd, O; reflexivity). apply Nat.even_spec in E. destruct E as [n E]. destruct (chunks2_ok n qs gs E B N) as [gs' [A1 [A2 A3]]]. exists gs'. split; [exact A1|]. split; [exact A2|lia].
Qed.
Lemma mixed_fold qs gs : blocks qs gs -> forall j a, jac_is C j a -> jac_is C (fold_left jmixed qs j) (a + sum_of (concat gs)).
Proof.
  induction 1 as [|q g qs gs [H _] _ IH]; intros j a J; cbn [fold_left concat]; [cbn; rewrite madd_0_r; exact J|]. rewrite sum_app, madd_assoc. apply IH. now apply jmixed_is.
Qed.
(** A bucket during the reduction: not yet added up, or done. *)
Definition state (st : list (affine K) * jac K) (L : list M) : Prop :=
  (exists gs, blocks (fst st) gs /\ concat gs = L /\ snd st = jzero) \/ (fst st = [] /\ jac_is C (snd st) (sum_of L)).
Lemma flush_done st L : state st L -> (length (fst st) <= 16)%nat -> fst (flush st) = [] /\ jac_is C (snd (flush st)) (sum_of L).
Proof.
  intros H LE. unfold flush, THRESHOLD. destruct (Nat.ltb_spec 16 (length (fst st))); [lia|]. destruct H as [[gs [B [E Z]]]|[E J]].
  - destruct (Nat.eqb_spec (length (fst st)) 0) as [Z0|NZ].
    + destruct st as [qs r]. cbn [fst snd] in *. destruct qs; [|discriminate]. inversion B; subst. split; [reflexivity|]. apply jzero_is.
    + cbn [fst snd]. split; [reflexivity|]. subst L. rewrite <- (madd_0 _ _ (sum_of _)). apply mixed_fold; [exact B|apply jzero_is].
  - rewrite E. cbn [length Nat.eqb]. auto.
Qed.
Lemma round_ok st L : state st L -> (nice L \/ length L <= 16)%nat -> state (pairup (flush st)) L /\ (length (fst (pairup (flush st))) <= length (fst st) - 1)%nat.
Proof.
  intros H G. destruct (Nat.le_gt_cases (length (fst st)) 16) as [LE|GT].
  - destruct (flush_done st L H LE) as [A B]. unfold pairup. rewrite A. cbn [length THRESHOLD Nat.ltb Nat.leb]. split; [right; auto|rewrite A; cbn; lia].
  - assert (FL : flush st = st) by (unfold flush, THRESHOLD; destruct (Nat.ltb_spec 16 (length (fst st))); [reflexivity|lia]). rewrite FL. unfold pairup, THRESHOLD. destruct (Nat.ltb_spec 16 (length (fst st))); [|lia]. cbn [fst snd].
    destruct H as [[gs [B [E Z]]]|[E _]]; [|rewrite E in GT; cbn in GT; lia]. destruct (blocks_length _ _ B) as [L1 L2]. rewrite E in L2.
    destruct G as [G|G]; [|lia]. rewrite <- E in G. destruct (halve_ok _ _ B G) as [gs' [A1 [A2 A3]]]. split; [left; exists gs'; cbn [fst snd]; rewrite A2; auto|lia].
Qed.
Lemma reduce_loop_ok : forall fuel sts Ls, Forall2 state sts Ls -> Forall (fun L => (nice L \/ length L <= 16)%nat) Ls -> Forall (fun st => (length (fst st) < fuel)%nat) sts -> (1 <= fuel)%nat ->
  exists js, reduce_loop fuel sts = Ok js /\ Forall2 (fun j L => jac_is C j (sum_of L)) js Ls.
Proof.
  induction fuel as [|fuel IH]; intros sts Ls H G D P; [lia|]. cbn [reduce_loop]. destruct (forallb _ sts) eqn:E.
  - eexists. split; [reflexivity|]. clear - H E. induction H as [|st L sts Ls H _ IH]; cbn [map]; constructor; cbn [forallb] in E; apply andb_prop in E; destruct E as [E1 E2]; [|now apply IH].
    apply flush_done; [exact H|]. unfold THRESHOLD in E1. destruct (Nat.ltb_spec 16 (length (fst st))); [discriminate|lia].
  - assert (P17 : (17 <= fuel)%nat).
    { clear - E D. induction sts as [|st sts IHs]; [discriminate|]. inversion D as [|? ? D1 D2]; subst. cbn [forallb] in E. apply andb_false_iff in E. destruct E as [E|E]; [|now apply IHs]. unfold THRESHOLD in E. destruct (Nat.ltb_spec 16 (length (fst st))); [lia|discriminate]. }
    apply IH; [| exact G| |lia].
    + clear - H G. induction H as [|st L sts Ls H _ IH]; cbn [map]; constructor; inversion G; subst; [now apply round_ok|now apply IH].
    + clear - H G D P17. induction H as [|st L sts Ls H _ IH]; cbn [map]; constructor; inversion G as [|? ? G1 G2]; inversion D as [|? ? D1 D2]; subst; [|now apply IH]. destruct (round_ok st L H G1) as [_ Q]. lia.
Qed.
Lemma reduce_ok bss Ls : Forall2 (Forall2 (affine_is C)) bss Ls -> Forall (fun L => (nice L \/ length L <= 16)%nat) Ls ->
  exists js, reduce_buckets bss = Ok js /\ Forall2 (fun j L => jac_is C j (sum_of L)) js Ls.
Proof.
  intros H G. unfold reduce_buckets. apply reduce_loop_ok; [|exact G| |lia].
  - clear G. induction H as [|bs L bss Ls H _ IH]; cbn [map]; constructor; [|exact IH]. left. exists (map (fun x => [x]) L). cbn [fst snd]. split; [|split; [|reflexivity]].
    + clear - H. induction H as [|b x bs L H _ IH]; cbn [map]; constructor; [|exact IH]. split; [|discriminate]. cbn. rewrite madd_0_r. exact H.
    + clear. induction L as [|x L IH]; [reflexivity|]. cbn. now rewrite IH.
  - clear. set (n := fold_right _ _ bss). assert (N : forall b, In b bss -> (length b <= n)%nat).
    { unfold n. clear n. induction bss as [|b0 bss IH]; intros b []; cbn [fold_right]; [subst; lia|]. specialize (IH b H). lia. }
    apply Forall_forall. intros st Hst. apply in_map_iff in Hst. destruct Hst as [b [<- Hb]]. cbn [fst]. specialize (N b Hb). lia.
Qed.

(** ** One window *)
Definition digit (c w_start : nat) (s : Z) : Z := ((s / 2 ^ Z.of_nat w_start) mod 2 ^ Z.of_nat c)%Z.
Definition bval (Ls : list (list M)) : M := match Ls with [] => m0 | L :: Ls' => sum_of L + wsum 1 (map sum_of Ls') end.
Lemma push_len {T} (l : list (list T)) : forall i b, length (push l i b) = length l.
Proof. induction l as [|x l IH]; intros [|i] b; cbn; auto. Qed.
Lemma push_rel {T U} (R : T -> U -> Prop) x y : R x y -> forall a b, Forall2 (Forall2 R) a b -> forall i, Forall2 (Forall2 R) (push a i x) (push b i y).
Proof. intros H a b. induction 1 as [|l m a b L Hab IH]; intros [|i]; cbn [push]; constructor; auto. apply Forall2_app; auto. Qed.
Lemma place_rel {T U} (R : T -> U -> Prop) c w s x y a b : R x y -> Forall2 (Forall2 R) a b -> Forall2 (Forall2 R) (place c w a (s, x)) (place c w b (s, y)).
Proof. intros H Hab. unfold place. destruct (Z.eqb s 1); [destruct (Nat.eqb w 0); auto; now apply push_rel|]. cbv zeta. destruct (Z.eqb _ 0); auto. now apply push_rel. Qed.
Lemma places_rel {T U} (R : T -> U -> Prop) c w : forall sxs sys, Forall2 (fun sx sy => fst sx = fst sy /\ R (snd sx) (snd sy)) sxs sys -> forall a b, Forall2 (Forall2 R) a b -> Forall2 (Forall2 R) (fold_left (place c w) sxs a) (fold_left (place c w) sys b).
Proof. induction 1 as [|[s x] [s' y] sxs sys [E H] _ IH]; intros a b Hab; [exact Hab|]. cbn [fold_left]. cbn [fst snd] in *. subst s'. apply IH. now apply place_rel. Qed.
Lemma place_len {T} c w (a : list (list T)) sb : length (place c w a sb) = length a.
Proof. destruct sb as [s b]. unfold place. destruct (Z.eqb s 1); [destruct (Nat.eqb w 0)|cbv zeta; destruct (Z.eqb _ 0)]; auto using push_len. Qed.
(** Buckets are parts of the point list. *)
Lemma push_sub {T} (ps : list T) x : forall a i, Forall (fun L => subseq L ps) a -> Forall (fun L => subseq L (ps ++ [x])) (push a i x).
Proof.
  assert (W : forall a, Forall (fun L => subseq L ps) a -> Forall (fun L => subseq L (ps ++ [x])) a) by (intros a; apply Forall_impl; intros L; apply subseq_skipr).
  induction a as [|L a IH]; intros [|i] H; cbn [push]; try constructor; inversion H as [|? ? H1 H2]; subst; auto; [now apply subseq_app|now apply subseq_skipr].
Qed.
Lemma places_sub {T} c w : forall (sbs : list (Z * T)) ps a, Forall (fun L => subseq L ps) a -> Forall (fun L => subseq L (ps ++ map snd sbs)) (fold_left (place c w) sbs a).
Proof.
  induction sbs as [|[s x] sbs IH]; intros ps a H; [cbn; now rewrite app_nil_r|]. cbn [fold_left map snd]. replace (ps ++ x :: map snd sbs) with ((ps ++ [x]) ++ map snd sbs) by (now rewrite <- app_assoc). apply IH.
  assert (W : Forall (fun L => subseq L (ps ++ [x])) a) by (revert H; apply Forall_impl; intros L; apply subseq_skipr). unfold place. destruct (Z.eqb s 1); [destruct (Nat.eqb w 0)|cbv zeta; destruct (Z.eqb _ 0)]; auto using push_sub.
Qed.
(** A bucket weighs its index. *)
Lemma push_wsum (x : M) : forall Ls i k, (i < length Ls)%nat -> wsum k (map sum_of (push Ls i x)) = wsum k (map sum_of Ls) + zs (k + Z.of_nat i) x.
Proof.
  induction Ls as [|L Ls IH]; intros i k H; [cbn in H; lia|]. destruct i as [|i]; cbn [push map wsum].
  - rewrite sum_app. cbn [sum_of fold_right]. rewrite Z.add_0_r, !smul_addr. fold (sum_of L). rewrite smul_0r. module_eq.
  - rewrite IH by (cbn in H; lia). replace (k + 1 + Z.of_nat i)%Z with (k + Z.of_nat (S i))%Z by lia. module_eq.
Qed.
Lemma push_bval0 (x : M) Ls : (0 < length Ls)%nat -> bval (push Ls 0 x) = bval Ls + x.
Proof. destruct Ls as [|L Ls]; [cbn; lia|]. intros _. cbn [push bval]. rewrite sum_app. cbn [sum_of fold_right]. module_eq. Qed.
Lemma push_bval (x : M) Ls i : (0 < i < length Ls)%nat -> bval (push Ls i x) = bval Ls + zs (Z.of_nat i) x.
Proof. destruct Ls as [|L Ls]; [cbn; lia|]. intros H. destruct i as [|i]; [lia|]. cbn [push bval]. rewrite push_wsum by (cbn in H; lia). replace (1 + Z.of_nat i)%Z with (Z.of_nat (S i)) by lia. module_eq. Qed.
Lemma place_bval c w s (x : M) Ls : (1 <= c <= 63)%nat -> length Ls = (2 ^ c)%nat -> bval (place c w Ls (s, x)) = bval Ls + zs (digit c w s) x.
Proof.
  intros Hc HL. assert (P2 : (2 <= 2 ^ Z.of_nat c)%Z) by (change 2%Z with (2 ^ 1)%Z at 1; apply Z.pow_le_mono_r; lia).
  assert (HL' : Z.of_nat (length Ls) = (2 ^ Z.of_nat c)%Z) by (rewrite HL, Nat2Z.inj_pow; reflexivity).
  unfold place. destruct (Z.eqb_spec s 1) as [->|NE].
  - assert (D : digit c w 1 = if (w =? 0)%nat then 1%Z else 0%Z).
    { unfold digit. destruct (Nat.eqb_spec w 0) as [->|NW]; [change (2 ^ Z.of_nat 0)%Z with 1%Z; rewrite Z.div_1_r; apply Z.mod_small; lia|].
      rewrite Z.div_small; [apply Z.mod_0_l; lia|]. split; [lia|]. apply (Z.lt_le_trans _ (2 ^ 1)); [lia|apply Z.pow_le_mono_r; lia]. }
    rewrite D. destruct (Nat.eqb w 0); [rewrite push_bval0 by lia; now rewrite zs_1|]. rewrite zs_0. module_eq.
  - cbv zeta. assert (D : (Z.shiftr s (Z.of_nat w) mod 2 ^ 64 mod Z.shiftl 1 (Z.of_nat c))%Z = digit c w s).
    { rewrite Z.shiftl_1_l, Z.shiftr_div_pow2 by lia. unfold digit. replace 64%Z with (Z.of_nat c + (64 - Z.of_nat c))%Z by lia. rewrite Z.pow_add_r by lia. rewrite Z.rem_mul_r by lia.
      rewrite Z.mul_comm, Z.mod_add by lia. apply Z.mod_mod. lia. }
    rewrite D. pose proof (Z.mod_pos_bound (s / 2 ^ Z.of_nat w) (2 ^ Z.of_nat c) ltac:(lia)) as R. fold (digit c w s) in R.
    destruct (Z.eqb_spec (digit c w s) 0) as [->|NZ]; [rewrite zs_0; module_eq|]. rewrite push_bval by lia. now rewrite Z2Nat.id by lia.
Qed.
Fixpoint digsum c w (sps : list (Z * M)) : M := match sps with [] => m0 | sp :: sps' => zs (digit c w (fst sp)) (snd sp) + digsum c w sps' end.
Lemma places_bval c w : (1 <= c <= 63)%nat -> forall sps Ls, length Ls = (2 ^ c)%nat -> bval (fold_left (place c w) sps Ls) = bval Ls + digsum c w sps.
Proof.
  intros Hc. induction sps as [|[s x] sps IH]; intros Ls HL; [cbn; now rewrite madd_0_r|]. cbn [fold_left digsum fst snd]. rewrite IH by (now rewrite place_len). rewrite place_bval by auto. module_eq.
Qed.
Lemma bval_nil n : bval (repeat [] n) = m0.
Proof.
  destruct n; [reflexivity|]. cbn [repeat bval]. assert (E : map (@sum_of F M) (repeat [] n) = repeat m0 n) by (induction n; [reflexivity|cbn [repeat map]; now f_equal]).
  rewrite E, wsum_0. cbn. apply madd_0.
Qed.
Lemma running_ok js Ls : Forall2 (fun j L => jac_is C j (sum_of L)) js Ls -> (1 <= length Ls)%nat -> exists j, running_sum js = Ok j /\ jac_is C j (bval Ls).
Proof.
  intros H L. destruct H as [|j0 L0 js Ls H0 H]; [cbn in L; lia|]. cbn [running_sum bval]. eexists. split; [reflexivity|].
  assert (G : forall l ms, Forall2 (jac_is C) l ms -> forall a s a' s', jac_is C a a' -> jac_is C s s' ->
    jac_is C (snd (fold_left (fun p b => let r := jadd (fst p) b in (r, jadd (snd p) r)) l (a, s))) (snd (fold_left (fun p x => let i := fst p + x in (i, snd p + i)) ms (a', s')))).
  { induction 1 as [|b m l ms Hb _ IH]; intros a s a' s' A S; [exact S|]. cbn [fold_left fst snd]. cbv zeta. apply IH; [now apply jadd_is|]. apply jadd_is; [exact S|now apply jadd_is]. }
  assert (R : Forall2 (jac_is C) (rev js) (rev (map sum_of Ls))).
  { assert (R : Forall2 (jac_is C) js (map sum_of Ls)) by (clear - H; induction H as [|? ? ? ? X _ IH]; cbn [map]; constructor; [exact X|exact IH]). clear - R. induction R as [|x y l m H _ IH]; [constructor|]. cbn [rev]. apply Forall2_app; auto. }
  specialize (G _ _ R jzero j0 m0 (sum_of L0) (jzero_is C) H0). rewrite running in G. rewrite rev_involutive, smul_0r in G. replace (sum_of L0 + wsum 1 (map sum_of Ls)) with (sum_of L0 + m0 + wsum 1 (map sum_of Ls)) by module_eq. exact G.
Qed.
Definition fit (ps : list M) : Prop := general_position ps \/ (length ps <= 16)%nat.
Lemma window_ok c w sbs sps : (1 <= c <= 63)%nat -> Forall2 (fun sb sp => fst sb = fst sp /\ affine_is C (snd sb) (snd sp)) sbs sps -> fit (map snd sps) ->
  exists j, window_sum c sbs w = Ok j /\ jac_is C j (digsum c w sps).
Proof.
  intros Hc H G. unfold window_sum. assert (E : Forall2 (Forall2 (affine_is C)) (repeat [] (2 ^ c)) (repeat ([] : list M) (2 ^ c))) by (generalize (2 ^ c)%nat; intros n; induction n; cbn; constructor; auto).
  pose proof (places_rel (affine_is C) c w sbs sps H _ _ E) as R.
  pose proof (places_sub c w sps [] (repeat [] (2 ^ c)) ltac:(apply Forall_forall; intros L HL; apply repeat_spec in HL; subst; constructor)) as SB. cbn [app] in SB.
  set (Ls := fold_left (place c w) sps (repeat [] (2 ^ c))) in *.
  assert (LL : forall (l : list (Z * M)) (a : list (list M)), length (fold_left (place c w) l a) = length a) by (induction l as [|x l IH]; intros a; [reflexivity|]; cbn [fold_left]; rewrite IH; apply place_len).
  destruct (reduce_ok _ Ls R) as [js [A B]].
  { revert SB. apply Forall_impl. intros L S. destruct G as [G|G]; [left; eapply general_nice; eauto|right; apply subseq_length in S; lia]. }
  rewrite A. cbn [bind]. destruct (running_ok js Ls B) as [j [J1 J2]].
  { unfold Ls. rewrite LL, repeat_length. assert (2 ^ c <> 0)%nat by (apply Nat.pow_nonzero; lia). lia. }
  exists j. split; [exact J1|]. unfold Ls in J2. rewrite places_bval in J2 by (auto; now rewrite repeat_length). rewrite bval_nil, madd_0 in J2. exact J2.
Qed.

(** ** All windows *)
Lemma iter_double c : forall j a, jac_is C j a -> jac_is C (Nat.iter c jdouble j) (fofZ (F := F) (2 ^ Z.of_nat c) *: a).
Proof.
  induction c as [|c IH]; intros j a H; [cbn [Nat.iter nat_rect]; change (2 ^ Z.of_nat 0)%Z with 1%Z; rewrite zs_1; exact H|]. change (Nat.iter (S c) jdouble j) with (jdouble (Nat.iter c jdouble j)).
  pose proof (jdouble_is C _ _ (IH j a H)) as D. replace (2 ^ Z.of_nat (S c))%Z with (2 ^ Z.of_nat c + 2 ^ Z.of_nat c)%Z by (rewrite Nat2Z.inj_succ, Z.pow_succ_r by lia; lia). rewrite zs_add. exact D.
Qed.
Section Combine.
Context (c : nat) (Hc : (1 <= c <= 63)%nat).
Let W := fofZ (F := F) (2 ^ Z.of_nat c).
Lemma high (f : nat -> M) n : forall t, fold_left (fun t s => W *: (t + s)) (rev (map f (seq 0 n))) t = fpow W n *: t + W *: hsum c n f.
Proof.
  induction n as [|n IH]; intros t; [cbn [seq map rev fold_left fpow hsum]; rewrite smul_1, smul_0r; module_eq|]. rewrite seq_S, map_app, rev_app_distr. cbn [map rev app fold_left Nat.add]. rewrite IH. cbn [hsum fpow]. fold W. rewrite !smul_addr, !smul_smul. module_eq.
Qed.
Lemma hsum_digit (x : M) : forall n s, (0 <= s < 2 ^ Z.of_nat (n * c))%Z -> hsum c n (fun i => zs (digit c (i * c) s) x) = zs s x.
Proof.
  assert (P : (0 < 2 ^ Z.of_nat c)%Z) by (apply Z.pow_pos_nonneg; lia).
  induction n as [|n IH]; intros s H; [change (2 ^ Z.of_nat (0 * c))%Z with 1%Z in H; replace s with 0%Z by lia; cbn [hsum]; now rewrite zs_0|].
  rewrite hsum_S. rewrite (hsum_ext c n _ (fun i => zs (digit c (i * c) (s / 2 ^ Z.of_nat c)) x)).
  - rewrite IH.
    + unfold digit. cbn [Nat.mul]. change (2 ^ Z.of_nat 0)%Z with 1%Z. rewrite Z.div_1_r. rewrite smul_smul, <- fofZ_mul, <- zs_add. do 2 f_equal. pose proof (Z.div_mod s (2 ^ Z.of_nat c)). lia.
    + replace (Z.of_nat (S n * c)) with (Z.of_nat c + Z.of_nat (n * c))%Z in H by lia. rewrite Z.pow_add_r in H by lia. split; [apply Z.div_pos; lia|apply Z.div_lt_upper_bound; lia].
  - intros i _. do 2 f_equal. unfold digit. f_equal. rewrite Z.div_div by (try (apply Z.pow_nonzero; lia); apply Z.pow_pos_nonneg; lia). f_equal. rewrite <- Z.pow_add_r by lia. f_equal. lia.
Qed.
Fixpoint total' (sps : list (Z * M)) : M := match sps with [] => m0 | sp :: sps' => zs (fst sp) (snd sp) + total' sps' end.
Lemma hsum_total n : forall sps, Forall (fun sp => (0 <= fst sp < 2 ^ Z.of_nat (n * c))%Z) sps -> hsum c n (fun i => digsum c (i * c) sps) = total' sps.
Proof.
  induction sps as [|sp sps IH]; intros H; [apply hsum_0|]. inversion H; subst. rewrite (hsum_ext c n _ (fun i => zs (digit c (i * c) (fst sp)) (snd sp) + digsum c (i * c) sps)) by reflexivity.
  rewrite hsum_lin. rewrite IH by assumption. rewrite hsum_digit by assumption. reflexivity.
Qed.
Lemma windows_ok sbs sps : Forall2 (fun sb sp => fst sb = fst sp /\ affine_is C (snd sb) (snd sp)) sbs sps -> fit (map snd sps) ->
  forall ws, exists js, Base.mapM (window_sum c sbs) ws = Ok js /\ Forall2 (jac_is C) js (map (fun w => digsum c w sps) ws).
Proof.
  intros H G. induction ws as [|w ws [js [A B]]]; [exists []; split; [reflexivity|constructor]|]. destruct (window_ok c w sbs sps Hc H G) as [j [J1 J2]]. exists (j :: js). cbn. rewrite J1. cbn. rewrite A. split; [reflexivity|constructor; assumption].
Qed.
Lemma fold_high : forall js ms, Forall2 (jac_is C) js ms -> forall j a, jac_is C j a -> jac_is C (fold_left (fun total s => Nat.iter c jdouble (jadd total s)) js j) (fold_left (fun t s => W *: (t + s)) ms a).
Proof. induction 1 as [|x y js ms H _ IH]; intros j a J; [exact J|]. cbn [fold_left]. apply IH. apply iter_double. now apply jadd_is. Qed.
End Combine.
Lemma window_size_ok n : (Z.of_nat n < 2 ^ 64)%Z -> (3 <= window_size n <= 63)%nat.
Proof.
  intros H. unfold window_size, ln_without_floats. destruct (Nat.ltb_spec n 512) as [|G]; [lia|].
  assert (A : (9 <= Nat.log2_up n)%nat) by (change 9%nat with (Nat.log2_up 512); now apply Nat.log2_up_le_mono).
  assert (B : (Nat.log2_up n <= 64)%nat).
  { apply Nat.log2_up_le_pow2; [lia|]. apply Nat2Z.inj_le. rewrite Nat2Z.inj_pow. change (Z.of_nat 2 ^ Z.of_nat 64)%Z with (2 ^ 64)%Z. lia. }
  set (l := Nat.log2_up n) in *. clearbody l. assert (6 <= l * 69 / 100)%nat by (apply Nat.div_le_lower_bound; lia). assert (l * 69 / 100 <= 50)%nat by (apply Nat.div_le_upper_bound; lia). lia.
Qed.
Lemma combination_total : forall scalars (ps : list M), combination (map (fofZ (F := F)) scalars) ps = total' (filter (fun sb => negb (Z.eqb (fst sb) 0)) (combine scalars ps)).
Proof.
  induction scalars as [|s scalars IH]; intros [|p ps]; try reflexivity. cbn [map combination combine filter fst]. destruct (Z.eqb_spec s 0) as [->|]; cbn [negb total' fst snd]; rewrite IH; [rewrite zs_0; apply madd_0|reflexivity].
Qed.
Definition used (scalars : list Z) (ps : list M) : list M := map snd (filter (fun sb => negb (Z.eqb (fst sb) 0)) (combine scalars ps)).
Theorem msm_ok bases scalars ps : Forall2 (affine_is C) bases ps -> Forall (fun s => (0 <= s < 2 ^ 255)%Z) scalars -> (Z.of_nat (length bases) < 2 ^ 64)%Z -> fit (used scalars ps) ->
  exists j, msm_unsafe bases scalars = Ok j /\ jac_is C j (combination (map (fofZ (F := F)) scalars) ps).
Proof.
  intros H R L G. unfold msm_unsafe. set (nz := fun T (sb : Z * T) => negb (Z.eqb (fst sb) 0)). set (sbs := filter _ (combine scalars bases)). unfold used in G. set (sps := filter (fun sb => negb (Z.eqb (fst sb) 0)) (combine scalars ps)) in *.
  assert (RL : Forall2 (fun sb sp => fst sb = fst sp /\ affine_is C (snd sb) (snd sp)) sbs sps).
  { unfold sbs, sps. clear - H. revert scalars. induction H as [|b p bases ps H _ IH]; intros [|s scalars]; try constructor. cbn [combine filter fst]. destruct (Z.eqb s 0); cbn [negb]; [apply IH|]. constructor; [cbn; auto|apply IH]. }
  assert (LS : (length sbs <= length bases)%nat).
  { unfold sbs. clear. revert bases. induction scalars as [|s scalars IH]; intros [|b bases]; cbn [combine filter length]; try lia. specialize (IH bases). destruct (negb _); cbn [length]; lia. }
  set (c := window_size (length sbs)). assert (Hc : (3 <= c <= 63)%nat) by (apply window_size_ok; lia). cbv zeta.
  destruct (windows_ok c ltac:(lia) sbs sps RL G (window_starts c)) as [js [A B]]. rewrite A. cbn [bind].
  unfold window_starts in B. set (n := ((NUM_BITS + c - 1) / c)%nat) in *. assert (N : (255 <= n * c /\ 1 <= n)%nat).
  { unfold n, NUM_BITS. pose proof (Nat.div_mod_eq (255 + c - 1) c) as D. pose proof (Nat.mod_upper_bound (255 + c - 1) c ltac:(lia)). set (q := ((255 + c - 1) / c)%nat) in *. split; nia. }
  clearbody n. destruct n as [|n]; [exfalso; clear - N; lia|]. cbn [seq map] in B. inversion B as [|j0 ? js' ? B1 B2]; subst. eexists. split; [reflexivity|].
  rewrite combination_total. fold sps. rewrite <- (hsum_total c ltac:(lia) (S n)).
  - rewrite hsum_S. apply jadd_is; [exact B1|].
    assert (R2 : Forall2 (jac_is C) (rev js') (rev (map (fun i => digsum c (S i * c) sps) (seq 0 n)))).
    { rewrite map_map, <- seq_shift, map_map in B2. clear - B2. induction B2 as [|x y l m H _ IH]; [constructor|]. cbn [rev]. apply Forall2_app; auto. }
    pose proof (fold_high c _ _ R2 jzero m0 (jzero_is C)) as Q. rewrite (high c (fun i => digsum c (S i * c) sps)), smul_0r, madd_0 in Q. exact Q.
  - apply Forall_forall. intros sp Hsp. unfold sps in Hsp. apply filter_In in Hsp. destruct Hsp as [Hsp _]. destruct sp as [s p]. apply in_combine_l in Hsp. rewrite Forall_forall in R. specialize (R s Hsp). cbn [fst].
    split; [apply R|]. eapply Z.lt_le_trans; [apply R|]. apply Z.pow_le_mono_r; lia.
Qed.
End Proofs.
