(** C31 and C32: multi-exponentiation returns the sum of the scalar multiples. *)
From Coq Require Import List ZArith Bool Lia ZifyBool ZifyNat Field Ring.
From Verif Require Import Base Field PField MsmModel MsmSpec MsmProofs BucketModel BucketSpec BucketCurve BucketProofs.
Import ListNotations.

Section C31.
Context {F : PField} {M : Mod F} (nl : nat) (Hnl : (pchar F <= 2 ^ (64 * Z.of_nat nl))%Z).
(** Up to 799 scalars the default implementation is correct, whatever the points (a longer
    list on either side is cut to the shorter one). *)
Theorem C31_sum_of_multiples_partial (scalars : list F) (points : list M) : (length scalars < 800)%nat -> multi_exp nl scalars points = Ok (combination scalars points).
Proof. intros H. destruct scalars as [|s scalars]; [reflexivity|]. unfold multi_exp. now rewrite (pippenger_ok nl Hnl (s :: scalars) points) by (cbn in *; lia). Qed.
(** From 800 scalars on every call panics. *)
Theorem C31_800_scalars_refuted (scalars : list F) (points : list M) : (800 <= length scalars)%nat -> multi_exp nl scalars points = Panic.
Proof. intros H. destruct scalars as [|s scalars]; [cbn in H; lia|]. unfold multi_exp. now rewrite pippenger_panics by exact H. Qed.
End C31.
(** The signed digits of a scalar: each in [-2^(w-1), 2^(w-1)], adding up to the scalar. *)
Theorem C31_digits (w nl : nat) (z : Z) : (1 <= w <= 7)%nat -> (0 <= z < 2 ^ (64 * Z.of_nat nl))%Z ->
  exists ds, scalar_to_radix_2_power_w (limbs nl z) w = Ok ds /\ (fold_right (fun d v => d + 2 ^ Z.of_nat w * v) 0 ds = z)%Z /\
    Forall (fun d => (- (2 ^ Z.of_nat w / 2) <= d <= 2 ^ Z.of_nat w / 2)%Z) ds /\ ds <> [].
Proof. intros Hw Hz. destruct (limbs_val nl z Hz) as [A [B _]]. destruct (digits_ok w (limbs nl z) Hw A) as [ds [D1 [D2 D3]]]. exists ds. rewrite B in D2. auto. Qed.

Section C32.
Context {K : Field} {F : PField} {M : Mod F} (C : Curve K F M).
Add Field Kp : (f_th K).
(** At most 16 non-zero scalars. *)
Theorem C32_sixteen_terms_partial (bases : list (affine K)) (scalars : list Z) (points : list M) : Forall2 (affine_is C) bases points -> Forall (fun s => (0 <= s < 2 ^ 255)%Z) scalars ->
  (Z.of_nat (length bases) < 2 ^ 64)%Z -> (length (filter (fun s => negb (Z.eqb s 0)) scalars) <= 16)%nat ->
  exists j, msm_unsafe bases scalars = Ok j /\ jac_is C j (combination (map (fofZ (F := F)) scalars) points).
Proof.
  intros H R L G. apply msm_ok; auto. right. unfold used. rewrite map_length. refine (Nat.le_trans _ _ _ _ G). clear. revert points. induction scalars as [|s scalars IH]; intros points; cbn [combine filter length]; [lia|].
  destruct points as [|p points]; cbn [filter length]; [lia|]. cbn [fst]. specialize (IH points). destruct (negb (Z.eqb s 0)); cbn [length]; lia.
Qed.
(** Any number of terms, when the points with non-zero scalars are in general position. *)
Theorem C32_general_position_partial (bases : list (affine K)) (scalars : list Z) (points : list M) : Forall2 (affine_is C) bases points -> Forall (fun s => (0 <= s < 2 ^ 255)%Z) scalars ->
  (Z.of_nat (length bases) < 2 ^ 64)%Z -> general_position points ->
  exists j, msm_unsafe bases scalars = Ok j /\ jac_is C j (combination (map (fofZ (F := F)) scalars) points).
Proof.
  intros H R L [G0 G1]. apply msm_ok; auto. left.
  assert (S : subseq (used scalars points) points).
  { unfold used. clear. revert points. induction scalars as [|s scalars IH]; intros points; [constructor|]. destruct points as [|p points]; [constructor|]. cbn [combine filter fst]. destruct (negb (Z.eqb s 0)); cbn [map snd]; [apply sub_take, IH|apply sub_skip, IH]. }
  split.
  - intros Q. apply G0. revert Q. generalize (m0 : M) as z. clear - S. intros z. induction S as [m|x l m S IH|x l m S IH]; intros Q; [destruct Q|right; now apply IH|destruct Q as [->|Q]; [now left|right; now apply IH]].
  - intros A B NA NB Q. apply G1; auto. eapply subseq_trans; eauto.
Qed.
(** Eighteen copies of any point with non-zero abscissa are added up wrongly. *)
Local Open Scope F_scope.
Lemma window_on (b' : K) P w : (ay (affine_add P P) * ay (affine_add P P) = ax (affine_add P P) * ax (affine_add P P) * ax (affine_add P P) + b') ->
  exists j, window_sum 3 (repeat (1%Z, P) 18) w = Ok j /\ on b' j.
Proof.
  intros H. assert (Z0 : on b' jzero) by (left; reflexivity).
  assert (RS : forall b0 bs, on b' b0 -> Forall (on b') bs -> exists j, running_sum (b0 :: bs) = Ok j /\ on b' j).
  { intros b0 bs H0 HB. cbn [running_sum]. eexists. split; [reflexivity|]. apply Forall_rev in HB. assert (G : forall l a s, Forall (on b') l -> on b' a -> on b' s -> on b' (snd (fold_left (fun p b => let r := jadd (fst p) b in (r, jadd (snd p) r)) l (a, s)))).
    { induction l as [|x l IH]; intros a s X A S; [exact S|]. inversion X; subst. cbn [fold_left fst snd]. cbv zeta. apply IH; auto using jadd_on. }
    apply G; auto. }
  unfold window_sum. destruct w as [|w].
  - assert (B : fold_left (place 3 0) (repeat (1%Z, P) 18) (repeat [] (2 ^ 3)) = repeat P 18 :: repeat [] 7) by reflexivity. rewrite B. clear B.
    assert (R : reduce_buckets (repeat P 18 :: repeat [] 7) = Ok (fold_left jmixed (repeat (affine_add P P) 9) jzero :: repeat jzero 7)).
    { unfold reduce_buckets. cbn -[jmixed affine_add jzero fold_left]. reflexivity. }
    rewrite R. cbn [bind]. apply RS; [|repeat constructor; exact Z0].
    assert (G : forall n j, on b' j -> on b' (fold_left jmixed (repeat (affine_add P P) n) j)) by (induction n as [|n IH]; intros j J; [exact J|]; cbn [repeat fold_left]; apply IH; apply jmixed_on; [exact J|exact H]). apply G, Z0.
  - assert (B : fold_left (place 3 (S w)) (repeat (1%Z, P) 18) (repeat [] (2 ^ 3)) = repeat [] 8) by reflexivity. rewrite B. clear B.
    assert (R : reduce_buckets (repeat ([] : list (affine K)) 8) = Ok (repeat jzero 8)).
    { unfold reduce_buckets. cbn -[jmixed affine_add jzero fold_left]. reflexivity. }
    rewrite R. cbn [bind]. apply RS; [exact Z0|repeat constructor; exact Z0].
Qed.
Theorem C32_repeated_point_refuted (a : M) (x y : K) : (1 + 1 + 1 <> (0 : K)) -> fofZ (F := F) 18 <> 0 -> xy C a = Some (x, y) -> x <> 0 ->
  exists j, msm_unsafe (repeat (mkAff x y false) 18) (repeat 1%Z 18) = Ok j /\ ~ jac_is C j (combination (repeat (1 : F) 18) (repeat a 18)).
Proof.
  intros T3 T18 E NX. set (P := mkAff x y false). set (b' := y * y + (1 + 1) * (1 + 1) * (1 + 1) * (x * x * x)).
  assert (Q : ay (affine_add P P) * ay (affine_add P P) = ax (affine_add P P) * ax (affine_add P P) * ax (affine_add P P) + b') by (unfold b', affine_add; cbn [P ax ay]; cbv zeta; ring).
  assert (WS : forall ws, exists js, Base.mapM (window_sum 3 (repeat (1%Z, P) 18)) ws = Ok js /\ Forall (on b') js /\ length js = length ws).
  { induction ws as [|w ws [js [A [B L]]]]; [exists []; repeat split; constructor|]. destruct (window_on b' P w Q) as [j [J1 J2]]. exists (j :: js). cbn [Base.mapM]. rewrite J1. cbn [bind]. rewrite A. repeat split; [constructor; assumption|cbn; now rewrite L]. }
  assert (MS : exists j, msm_unsafe (repeat P 18) (repeat 1%Z 18) = Ok j /\ on b' j).
  { unfold msm_unsafe. change (filter _ (combine (repeat 1%Z 18) (repeat P 18))) with (repeat (1%Z, P) 18). cbv zeta. change (window_size (length (repeat (1%Z, P) 18))) with 3%nat. destruct (WS (window_starts 3)) as [js [A [B L]]]. rewrite A. cbn [bind]. destruct js as [|j0 js]; [exfalso; change (length (window_starts 3)) with 85%nat in L; discriminate L|]. inversion B as [|? ? B1 B2]; subst.
    eexists. split; [reflexivity|]. apply jadd_on; [exact B1|]. apply Forall_rev in B2. clear - B2. assert (G : forall l t, Forall (on b') l -> on b' t -> on b' (fold_left (fun total s => Nat.iter 3 jdouble (jadd total s)) l t)).
    { induction l as [|s l IH]; intros t X T; [exact T|]. inversion X; subst. cbn [fold_left]. apply IH; [assumption|]. cbn [Nat.iter nat_rect]. do 3 apply jdouble_on. now apply jadd_on. }
    apply G; [exact B2|left; reflexivity]. }
  destruct MS as [j [A B]]. exists j. split; [exact A|]. intros J.
  assert (S18 : combination (repeat (1 : F) 18) (repeat a 18) = smul (fofZ 18) a).
  { assert (G : forall n, combination (repeat (1 : F) n) (repeat a n) = smul (fofZ (Z.of_nat n)) a).
    { induction n as [|n IH]; [cbn [repeat combination]; change (fofZ (F := F) (Z.of_nat 0)) with (f0 : F); symmetry; apply smul_0l|]. cbn [repeat combination]. rewrite IH. replace (Z.of_nat (S n)) with (1 + Z.of_nat n)%Z by lia. rewrite fofZ_add, smul_addl, fofZ_1. reflexivity. }
    exact (G 18%nat). }
  rewrite S18 in J. destruct J as [[Z J]|[NZ J]].
  - apply smul_eq_0 in J. destruct J as [J|J]; [contradiction|]. apply (xy_0 _ _ _ C) in J. congruence.
  - destruct B as [B|B]; [contradiction|]. pose proof (xy_curve _ _ _ C _ _ _ J) as CJ. pose proof (xy_curve _ _ _ C _ _ _ E) as CE.
    assert (BB : coeff_b C = b').
    { assert (X : coeff_b C = jy j / (jz j * jz j * jz j) * (jy j / (jz j * jz j * jz j)) - jx j / (jz j * jz j) * (jx j / (jz j * jz j)) * (jx j / (jz j * jz j))) by (rewrite CJ; ring).
      rewrite X. replace (jy j / (jz j * jz j * jz j) * (jy j / (jz j * jz j * jz j))) with (jy j * jy j / (jz j * jz j * jz j * (jz j * jz j * jz j))) by (field; exact NZ). rewrite B. field. exact NZ. }
    unfold b' in BB. assert (N : (1 + 1 + 1) * (1 + 1 + 1) * (x * x * x) = 0).
    { replace ((1 + 1 + 1) * (1 + 1 + 1) * (x * x * x)) with ((y * y + (1 + 1) * (1 + 1) * (1 + 1) * (x * x * x)) - (y * y - x * x * x)) by ring. rewrite <- BB, CE. ring. }
    revert N. repeat apply fmul_neq_0; assumption.
Qed.
End C32.

(** *** Examples *)
(** The cubic y^2 = x^3 without its singular point is a group with the chord and tangent
    rules: t stands for the point (1/t^2, 1/t^3). It meets every assumption made on curves. *)
Section Cusp.
Context (F : Field) (T2 : (1 + 1 <> (0 : F))%F).
Add Field Fq : (f_th F).
Local Open Scope F_scope.
Definition cusp_xy (t : F) : option (F * F) := if f_dec t 0 then None else Some (1 / (t * t), 1 / (t * t * t)).
Lemma cusp_some (t x y : F) : cusp_xy t = Some (x, y) -> t <> 0 /\ x = 1 / (t * t) /\ y = 1 / (t * t * t).
Proof. unfold cusp_xy. destruct (f_dec t 0); [discriminate|]. intros H. injection H as <- <-. auto. Qed.
Lemma cusp_chord (t1 t2 x1 y1 x2 y2 : F) : cusp_xy t1 = Some (x1, y1) -> cusp_xy t2 = Some (x2, y2) -> x1 <> x2 ->
  let m := (y2 - y1) / (x2 - x1) in let x3 := m * m - x1 - x2 in cusp_xy (t1 + t2) = Some (x3, m * (x1 - x3) - y1).
Proof.
  intros H1 H2 N. apply cusp_some in H1. apply cusp_some in H2. destruct H1 as [N1 [-> ->]], H2 as [N2 [-> ->]].
  assert (S : t1 + t2 <> 0) by (intros S; apply N; assert (E : t1 * t1 = t2 * t2) by (replace (t1 * t1) with ((t1 + t2) * (t1 - t2) + t2 * t2) by ring; rewrite S; ring); now rewrite E).
  assert (D : t1 - t2 <> 0) by (intros D; apply (proj1 (fsub_0 F _ _)) in D; apply N; now rewrite D).
  assert (SQ : t1 * t1 - t2 * t2 <> 0) by (replace (t1 * t1 - t2 * t2) with ((t1 + t2) * (t1 - t2)) by ring; now apply fmul_neq_0).
  assert (DX : 1 / (t2 * t2) - 1 / (t1 * t1) <> 0) by (intros E; apply (proj1 (fsub_0 F _ _)) in E; apply N; now rewrite E).
  cbv zeta. assert (MM : (1 / (t2 * t2 * t2) - 1 / (t1 * t1 * t1)) / (1 / (t2 * t2) - 1 / (t1 * t1)) = (t1 * t1 + t1 * t2 + t2 * t2) / (t1 * t2 * (t1 + t2))) by (field; repeat split; auto).
  rewrite MM. unfold cusp_xy. destruct (f_dec (t1 + t2) 0); [contradiction|]. do 2 f_equal; field; repeat split; auto.
Qed.
Lemma cusp_tangent (t x y : F) : cusp_xy t = Some (x, y) -> y <> 0 -> let m := (1 + 1 + 1) * (x * x) / ((1 + 1) * y) in let x3 := m * m - x - x in cusp_xy (t + t) = Some (x3, m * (x - x3) - y).
Proof.
  intros H NY. apply cusp_some in H. destruct H as [N [-> ->]]. cbv zeta. assert (S : t + t <> 0) by (replace (t + t) with ((1 + 1) * t) by ring; now apply fmul_neq_0).
  unfold cusp_xy. destruct (f_dec (t + t) 0); [contradiction|]. do 2 f_equal; field; repeat split; auto.
Qed.
Lemma cusp_0 (a : F) : cusp_xy a = None <-> a = 0.
Proof. unfold cusp_xy. destruct (f_dec a 0) as [E|N]; split; auto; [discriminate|intros E; contradiction]. Qed.
Lemma cusp_inj (a b : F) : cusp_xy a = cusp_xy b -> a = b.
Proof.
  destruct (cusp_xy b) as [[x y]|] eqn:E; intros H; [|apply cusp_0 in H, E; congruence]. apply cusp_some in H. apply cusp_some in E. destruct H as [NA [XA YA]], E as [NB [XB YB]].
  assert (A : a = x / y) by (rewrite XA, YA; field; repeat split; auto; exact (f1_neq_0 F)). assert (B : b = x / y) by (rewrite XB, YB; field; repeat split; auto; exact (f1_neq_0 F)). congruence.
Qed.
Lemma cusp_curve (a : F) (x y : F) : cusp_xy a = Some (x, y) -> y * y = x * x * x + 0.
Proof. intros H. apply cusp_some in H. destruct H as [N [-> ->]]. field. exact N. Qed.
Lemma cusp_neg (a x y : F) : cusp_xy a = Some (x, y) -> cusp_xy (fopp a) = Some (x, fopp y).
Proof.
  intros H. apply cusp_some in H. destruct H as [N [-> ->]]. assert (S : fopp a <> 0) by (intros E; apply N; replace (a : F) with (fopp (fopp a)) by ring; rewrite E; ring).
  unfold cusp_xy. destruct (f_dec (fopp a) 0); [contradiction|]. do 2 f_equal; field; split; auto.
Qed.
Definition cusp : Curve F F (self_mod F) :=
  @mkCurve F F (self_mod F) 0 cusp_xy cusp_0 cusp_inj cusp_curve cusp_neg cusp_chord cusp_tangent T2.
End Cusp.
(** Integers each larger than the sum of those that follow are in general position. *)
Definition sumZ (l : list Z) : Z := fold_right Z.add 0%Z l.
Fixpoint super (l : list Z) : Prop := match l with [] => True | x :: l' => (sumZ l' < x)%Z /\ super l' end.
Lemma super_nonneg l : super l -> (0 <= sumZ l)%Z.
Proof. induction l as [|x l IH]; cbn; [lia|]. intros [A B]. specialize (IH B). unfold sumZ in *. lia. Qed.
Lemma super_sub l L : subseq l L -> super L -> super l /\ (sumZ l <= sumZ L)%Z.
Proof.
  induction 1 as [m|x l m H IH|x l m H IH]; intros S.
  - split; [exact I|]. apply super_nonneg in S. exact S.
  - cbn [super] in S. destruct S as [S1 S2]. destruct (IH S2) as [A B]. split; [exact A|]. apply super_nonneg in S2. cbn [sumZ fold_right]. fold (sumZ m). unfold sumZ in *. lia.
  - cbn [super] in S. destruct S as [S1 S2]. destruct (IH S2) as [A B]. cbn [super sumZ fold_right]. fold (sumZ m) (sumZ l). unfold sumZ in *. repeat split; auto; lia.
Qed.
Lemma super_general (F : PField) L : super L -> (sumZ L < pchar F)%Z -> general_position (M := self_mod F) (map (fofZ (F := F)) L).
Proof.
  intros S P. assert (SM : forall l, sum_of (M := self_mod F) (map (fofZ (F := F)) l) = fofZ (sumZ l)) by (induction l as [|x l IH]; [reflexivity|]; change (sumZ (x :: l)) with (x + sumZ l)%Z; rewrite fofZ_add, <- IH; reflexivity).
  assert (PL : forall x l, super (x :: l) -> (0 < x)%Z) by (intros x l [A B]; apply super_nonneg in B; unfold sumZ in *; lia).
  assert (MP : forall l L', subseq l (map (fofZ (F := F)) L') -> exists l', l = map (fofZ (F := F)) l' /\ subseq l' L').
  { intros l L'. revert l. induction L' as [|x L' IH]; intros l H; inversion H as [|? ? ? H1|? ? ? H1]; subst; try (exists []; split; [reflexivity|constructor]); destruct (IH _ H1) as [l' [-> A]]; [exists l'|exists (x :: l')]; split; auto; [now apply sub_skip|now apply sub_take]. }
  split.
  - intros Q. apply in_map_iff in Q. destruct Q as [z [E Hz]]. assert (0 < z < pchar F)%Z; [|apply (pf_char F z); assumption].
    apply in_split in Hz. destruct Hz as [l1 [l2 ->]]. destruct (super_sub (z :: l2) (l1 ++ z :: l2)) as [A B]; auto; [rewrite <- (app_nil_r (z :: l2)) at 2; apply subseq_mid|]. pose proof (PL _ _ A). destruct A as [A1 A2]. apply super_nonneg in A2. cbn [sumZ fold_right] in B. unfold sumZ in *. lia.
  - intros A B NA NB H. destruct (MP _ _ H) as [l [E1 H1]]. symmetry in E1. apply map_eq_app in E1. destruct E1 as [A' [B' [-> [<- <-]]]]. rewrite !SM. destruct (super_sub _ _ H1 S) as [S1 S2].
    assert (NA' : A' <> []) by (intros ->; apply NA; reflexivity). assert (NB' : B' <> []) by (intros ->; apply NB; reflexivity).
    assert (SA : forall a b, sumZ (a ++ b) = (sumZ a + sumZ b)%Z) by (induction a as [|x a IH]; intros b; [reflexivity|]; cbn [app sumZ fold_right] in *; specialize (IH b); unfold sumZ in *; lia).
    destruct A' as [|a A']; [contradiction|]. cbn [app super] in S1. destruct S1 as [S1 S1']. rewrite SA in S1. cbn [app] in S2. change (sumZ (a :: A' ++ B')) with (a + sumZ (A' ++ B'))%Z in S2. rewrite SA in S2.
    assert (0 <= sumZ A')%Z by (apply super_nonneg; apply (super_sub A' (A' ++ B')); [apply (subseq_mid [] A' B')|exact S1']).
    assert (0 < sumZ B')%Z.
    { assert (SB : super B') by (apply (super_sub B' (A' ++ B')); [pose proof (subseq_mid A' B' []) as Q; now rewrite app_nil_r in Q|exact S1']). destruct B' as [|b B']; [contradiction|]. pose proof (PL _ _ SB). destruct SB as [X Y]. apply super_nonneg in Y. cbn [sumZ fold_right]. unfold sumZ in *. lia. }
    change (sumZ (a :: A')) with (a + sumZ A')%Z. pose proof (pf_char F) as CH. split; intros Q.
    + apply (CH (a + sumZ A' - sumZ B')%Z ltac:(lia)). rewrite fofZ_sub. apply (proj2 (fsub_0 F _ _)). exact Q.
    + apply (CH (a + sumZ A' + sumZ B')%Z ltac:(lia)). rewrite fofZ_add. cbn [mopp self_mod] in Q. rewrite Q. apply (Radd_comm (f_rth F)) || idtac. rewrite (Radd_comm (f_rth F)). apply (Ropp_def (f_rth F)).
Qed.
(** Seventeen points of a curve over the BLS scalar field, all in the same bucket. *)
Lemma bls_two : (1 + 1 <> (0 : BLS))%F.
Proof. intros H. apply (pf_char BLS 2%Z); [split; reflexivity|exact H]. Qed.
Definition cusp_point {F : Field} (t : F) : affine F := match cusp_xy F t with Some (x, y) => mkAff x y false | None => mkAff f0 f1 true end.
Lemma cusp_point_is {F : Field} T2 (t : self_mod F) : affine_is (cusp F T2) (cusp_point (F := F) t) t.
Proof. unfold affine_is, cusp_point. cbn [xy cusp]. destruct (cusp_xy F t) as [[x y]|] eqn:E; cbn [ainf ax ay]; [reflexivity|now apply cusp_0]. Qed.
Definition powers : list Z := [65536; 32768; 16384; 8192; 4096; 2048; 1024; 512; 256; 128; 64; 32; 16; 8; 4; 2; 1]%Z.
Example C32_case : exists j, msm_unsafe (map (fun z => cusp_point (fofZ (F := BLS) z)) powers) (repeat 5%Z 17) = Ok j /\
  jac_is (cusp BLS bls_two) j (combination (map (fofZ (F := BLS)) (repeat 5%Z 17)) (map (fofZ (F := BLS)) powers : list (self_mod BLS))).
Proof.
  apply C32_general_position_partial.
  - induction powers as [|z l IH]; [constructor|]. constructor; [apply cusp_point_is|exact IH].
  - apply Forall_forall. intros s Hs. apply repeat_spec in Hs. subst. split; reflexivity || discriminate.
  - reflexivity.
  - apply super_general; [cbn; repeat split; reflexivity|reflexivity].
Qed.
Example C32_refuted_case : exists j, msm_unsafe (repeat (cusp_point (1 : BLS)%F) 18) (repeat 1%Z 18) = Ok j /\ ~ jac_is (cusp BLS bls_two) j (combination (repeat (1 : BLS)%F 18) (repeat ((1 : BLS)%F : self_mod BLS) 18)).
Proof.
  assert (N1 : (1 : BLS)%F <> 0%F) by apply f1_neq_0. unfold cusp_point. destruct (cusp_xy BLS 1%F) as [[x y]|] eqn:E.
  - apply (C32_repeated_point_refuted (cusp BLS bls_two) (1%F : self_mod BLS)); [| |exact E|].
    + intros H. apply (pf_char BLS 3%Z); [split; reflexivity|exact H].
    + apply (pf_char BLS 18%Z). split; reflexivity.
    + apply cusp_some in E. destruct E as [_ [-> _]]. intros H. apply N1. rewrite <- (self_1 BLS 1%F). etransitivity; [|exact H]. symmetry. rewrite (self_1 BLS). rewrite (Fdiv_def (f_th BLS)). rewrite (Radd_comm (f_rth BLS)) || idtac. transitivity (finv 1%F * 1%F : BLS)%F; [apply (Rmul_comm (f_rth BLS))|apply (Finv_l (f_th BLS)); exact N1].
  - unfold cusp_xy in E. destruct (f_dec (1 : BLS)%F 0%F); [contradiction|discriminate].
Qed.
(** Three scalars over the BLS field: 1000 * 7 + 2 * 11 + (r - 1) * 5. *)
Example C31_case : multi_exp (M := self_mod BLS) 4 [fofZ 1000; fofZ 2; fofZ (-1)] [fofZ 7; fofZ 11; fofZ 5] = Ok (combination (M := self_mod BLS) [fofZ 1000; fofZ 2; fofZ (-1)] [fofZ 7; fofZ 11; fofZ 5]).
Proof. apply C31_sum_of_multiples_partial; [vm_compute; discriminate|cbn; lia]. Qed.
Print Assumptions C31_sum_of_multiples_partial.
Print Assumptions C31_800_scalars_refuted.
Print Assumptions C31_digits.
Print Assumptions C32_sixteen_terms_partial.
Print Assumptions C32_general_position_partial.
Print Assumptions C32_repeated_point_refuted.
