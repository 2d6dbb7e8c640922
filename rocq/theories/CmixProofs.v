From Coq Require Import List Arith NArith ZArith Bool Lia Permutation Field Ring.
From Verif Require Import Base Field PField PolyModel PolySpec PolyProofs PolyLemmas PlonkPoly CmixModel CmixSpec.
Import ListNotations.
Local Open Scope F_scope.

(** ** Algebra of the challenges *)
Section Algebra.
Context {F : Field}.
Add Field Fcm : (f_th F).

Definition prod_at (l : list F) (z : F) : F := fprod (map (fun x => x - z) l).
Lemma prod_at_pdeg l : pdeg (length l) (prod_at l).
Proof.
  induction l as [|a l IH]; [exact (pdeg_const 0 1)|].
  apply (pdeg_ext (1 + length l)) with (f := fun z => (a - z) * prod_at l z); [reflexivity|].
  apply pdeg_mul; [|exact IH]. apply pdeg_sub; [apply pdeg_const|apply pdeg_x; lia].
Qed.
Lemma prod_at_0 l z : prod_at l z = 0 -> In z l.
Proof.
  unfold prod_at. induction l as [|a l IH]; cbn [map]; [rewrite fprod_nil; intros H; now destruct (f1_neq_0 F)|].
  rewrite fprod_cons. intros H. apply fmul_0 in H. destruct H as [H|H]; [left; now apply (proj1 (fsub_0 F _ _))|right; auto].
Qed.
Lemma prod_perm : forall (A B S : list F), NoDup S -> length A = length B -> (length A < length S)%nat ->
  (forall z, In z S -> prod_at A z = prod_at B z) -> Permutation A B.
Proof.
  induction A as [|a A IH]; intros B S N L LS E.
  - destruct B; [constructor|discriminate].
  - assert (X : forall z, prod_at (a :: A) z - prod_at B z = 0).
    { apply (pdeg_roots (length (a :: A)) _ S); [|exact N|exact LS|intros z Hz; rewrite E by exact Hz; ring].
      apply pdeg_sub; [apply prod_at_pdeg|rewrite L; apply prod_at_pdeg]. }
    assert (I : In a B).
    { apply prod_at_0. specialize (X a). unfold prod_at at 1 in X. cbn [map] in X. rewrite fprod_cons in X.
      transitivity (fopp ((a - a) * fprod (map (fun x => x - a) A) - prod_at B a)); [ring|]. rewrite X. ring. }
    apply in_split in I. destruct I as [B1 [B2 ->]]. apply Permutation_cons_app.
    assert (D : forall x y : F, {x = y} + {x <> y}) by apply f_dec.
    apply (IH (B1 ++ B2) (remove D a S)).
    + clear - N. induction S as [|s S IHS]; cbn; [constructor|]. inversion N; subst. destruct (D a s); [auto|]. constructor; [|auto]. intros Q. apply in_remove in Q. tauto.
    + rewrite !app_length in *. cbn [length] in L. lia.
    + cbn [length] in LS. enough (length S <= Datatypes.S (length (remove D a S)))%nat by lia.
      clear - N. induction S as [|s S IHS]; cbn; [lia|]. inversion N; subst. destruct (D a s) as [<-|].
      * rewrite notin_remove by assumption. lia.
      * cbn. specialize (IHS H2). lia.
    + intros z Hz. apply in_remove in Hz. destruct Hz as [_ Nz]. specialize (X z).
      unfold prod_at in *. rewrite map_app, fprod_app in X |- *. cbn [map] in X. rewrite !fprod_cons in X.
      apply (fmul_cancel F (a - z)); [intros Q; apply Nz; symmetry; now apply (proj1 (fsub_0 F _ _))|].
      apply (proj1 (fsub_0 F _ _)). etransitivity; [|exact X]. ring.
Qed.
(** Among more than [length bad] distinct elements one is not bad. *)
Lemma avoid (S bad : list F) : NoDup S -> (length bad < length S)%nat -> exists x, In x S /\ ~ In x bad.
Proof.
  intros N L. destruct (Exists_dec (fun x => ~ In x bad) S) as [E|E].
  - intros x. destruct (in_dec f_dec x bad); [right|left]; tauto.
  - apply Exists_exists in E. destruct E as [x [A B]]. eauto.
  - exfalso. assert (I : incl S bad).
    { intros x Hx. destruct (in_dec f_dec x bad) as [|n]; [assumption|]. destruct E. apply Exists_exists. eauto. }
    pose proof (NoDup_incl_length N I). lia.
Qed.
(** An affine form that vanishes nowhere... a pair of affine forms in three challenges whose product
    vanishes on a grid: one of them is zero. *)
Definition form (a b c d x1 x2 x3 : F) : F := a + b * x1 + c * x2 + d * x3.
Lemma forms_zero (S : list F) a b c d a' b' c' d' : NoDup S -> (2 < length S)%nat ->
  (forall x1 x2 x3, In x1 S -> In x2 S -> In x3 S -> form a b c d x1 x2 x3 * form a' b' c' d' x1 x2 x3 = 0) ->
  (a = 0 /\ b = 0 /\ c = 0 /\ d = 0) \/ (a' = 0 /\ b' = 0 /\ c' = 0 /\ d' = 0).
Proof.
  intros N L H. unfold form in H.
  assert (Z : forall x : F, {x = 0} + {x <> 0}) by (intros; apply f_dec).
  assert (Dec : forall a b c d : F, {a = 0 /\ b = 0 /\ c = 0 /\ d = 0} + {a <> 0 \/ b <> 0 \/ c <> 0 \/ d <> 0}) by (intros p q r s; destruct (Z p), (Z q), (Z r), (Z s); auto).
  destruct (Dec a b c d) as [?|P]; [now left|]. destruct (Dec a' b' c' d') as [?|P']; [now right|]. exfalso.
  (* keep both forms non-zero while fixing the challenges one by one *)
  assert (step : forall p q r s : F, (p <> 0 \/ q <> 0 \/ r <> 0 \/ s <> 0) -> exists bad, forall x, x <> bad -> (p + q * x <> 0 \/ r <> 0 \/ s <> 0)).
  { intros p q r s Q. destruct (Z q) as [->|Nq].
    - exists 0. intros x _. destruct Q as [Q|[Q|Q]]; [left; intros E; apply Q; etransitivity; [|exact E]; ring|now destruct Q|tauto].
    - exists (fopp p / q). intros x Nx. left. intros E. apply Nx. transitivity ((p + q * x - p) / q); [field; exact Nq|]. rewrite E. field. exact Nq. }
  assert (pick : forall u v : F, exists x, In x S /\ x <> u /\ x <> v).
  { intros u v. destruct (avoid S [u; v] N) as [x [A B]]; [cbn; lia|]. exists x. split; [exact A|]. cbn in B. split; intros ->; tauto. }
  destruct (step a b c d P) as [u Hu], (step a' b' c' d' P') as [v Hv]. destruct (pick u v) as [x1 [I1 [A1 B1]]]. specialize (Hu x1 A1). specialize (Hv x1 B1).
  destruct (step (a + b * x1) c d 0) as [u2 Hu2]; [clear - Hu; tauto|]. destruct (step (a' + b' * x1) c' d' 0) as [v2 Hv2]; [clear - Hv; tauto|].
  destruct (pick u2 v2) as [x2 [I2 [A2 B2]]]. specialize (Hu2 x2 A2). specialize (Hv2 x2 B2).
  destruct (step (a + b * x1 + c * x2) d 0 0) as [u3 Hu3]; [clear - Hu2; tauto|]. destruct (step (a' + b' * x1 + c' * x2) d' 0 0) as [v3 Hv3]; [clear - Hv2; tauto|].
  destruct (pick u3 v3) as [x3 [I3 [A3 B3]]]. specialize (Hu3 x3 A3). specialize (Hv3 x3 B3).
  specialize (H x1 x2 x3 I1 I2 I3). apply fmul_0 in H. destruct H as [H|H]; [destruct Hu3 as [Q|[Q|Q]]|destruct Hv3 as [Q|[Q|Q]]]; congruence.
Qed.
End Algebra.

Section Shuffle.
Context {F : PField}.
Add Field Fcs : (f_th F).
Definition single (k : F) (v : mval F) : F := amount v + k * atype v.
Lemma mval_dec (u v : mval F) : {u = v} + {u <> v}.
Proof. destruct u as [a t], v as [b s]. destruct (f_dec a b) as [->|]; [|right; congruence]. destruct (f_dec t s) as [->|]; [now left|right; congruence]. Qed.
(** A challenge separating the records of a list. *)
Lemma separate (S : list F) (P : list (mval F)) : NoDup S -> (length P * length P < length S)%nat ->
  exists k, In k S /\ forall u v, In u P -> In v P -> single k u = single k v -> u = v.
Proof.
  intros N L. pose (bad := map (fun uv : mval F * mval F => fopp (amount (fst uv) - amount (snd uv)) / (atype (fst uv) - atype (snd uv))) (list_prod P P)).
  destruct (avoid S bad N) as [k [I B]]; [unfold bad; rewrite map_length, prod_length; exact L|]. exists k. split; [exact I|].
  intros [a t] [b s] Hu Hv E. unfold single in E. cbn [amount atype] in E. destruct (f_dec t s) as [->|Nt].
  - f_equal. apply (proj1 (fsub_0 F _ _)). transitivity ((a + k * s) - (b + k * s)); [ring|]. rewrite E. ring.
  - exfalso. apply B. unfold bad. apply in_map_iff. exists (mkVal a t, mkVal b s). split; [|now apply in_prod]. cbn [fst snd amount atype].
    assert (Nt' : t - s <> 0) by (intros Q; apply Nt; now apply (proj1 (fsub_0 F _ _))).
    transitivity ((k * (t - s)) / (t - s)); [|field; exact Nt']. f_equal.
    transitivity ((b + k * s) - a - k * s); [ring|]. rewrite <- E. ring.
Qed.
Lemma shuffle_sound (S : list F) (A B : list (mval F)) : NoDup S -> length A = length B -> (4 * (length A * length A) < length S)%nat ->
  (forall k z, In k S -> In z S -> prod_at (map (single k) A) z = prod_at (map (single k) B) z) -> Permutation A B.
Proof.
  intros N L LS E. destruct (separate S (A ++ B) N) as [k [I Sep]]; [rewrite app_length; nia|].
  assert (P : Permutation (map (single k) A) (map (single k) B)).
  { apply (prod_perm _ _ S N); rewrite ?map_length; [exact L|nia|intros z Hz; auto]. }
  apply Permutation_map_inv in P. destruct P as [C [Ec Pc]].
  assert (X : forall A' C', incl A' (A ++ B) -> incl C' (A ++ B) -> map (single k) A' = map (single k) C' -> A' = C').
  { induction A' as [|u A' IH]; intros [|v C'] H1 H2 Q; try discriminate; [reflexivity|]. cbn in Q. injection Q as Q1 Q2.
    f_equal; [apply Sep; [apply H1; now left|apply H2; now left|exact Q1]|]. apply IH; [intros y Hy; apply H1; now right|intros y Hy; apply H2; now right|exact Q2]. }
  rewrite (X A C); [now apply Permutation_sym|now apply incl_appl, incl_refl| |exact Ec].
  intros y Hy. apply in_or_app. right. apply (Permutation_in y (Permutation_sym Pc) Hy).
Qed.
Lemma shuffle_complete (A B : list (mval F)) k z : Permutation A B -> prod_at (map (single k) A) z = prod_at (map (single k) B) z.
Proof. intros P. unfold prod_at. apply fprod_perm. now do 2 apply Permutation_map. Qed.

(** The gate. *)
Definition gate_prod (i1 i2 o1 o2 : mval F) (x1 x2 x3 : F) : F :=
  form (amount i1 - amount o1) (atype i1 - atype o1) (amount i2 - amount o2) (atype i2 - atype o2) x1 x2 x3 *
  form (amount o1) (atype i1 - atype i2) (amount o2 - amount i1 - amount i2) (atype o2 - atype i1) x1 x2 x3.
Definition kept (i1 i2 o1 o2 : mval F) : Prop := i1 = o1 /\ i2 = o2.
Definition merged (i1 i2 o1 o2 : mval F) : Prop :=
  amount o1 = 0 /\ atype i1 = atype i2 /\ amount o2 = amount i1 + amount i2 /\ atype o2 = atype i1.
Lemma gate_sound (S : list F) i1 i2 o1 o2 : NoDup S -> (2 < length S)%nat ->
  (forall x1 x2 x3, In x1 S -> In x2 S -> In x3 S -> gate_prod i1 i2 o1 o2 x1 x2 x3 = 0) -> kept i1 i2 o1 o2 \/ merged i1 i2 o1 o2.
Proof.
  intros N L H. apply (forms_zero S) in H; [|exact N|exact L]. destruct H as [[A [B [C D]]]|[A [B [C D]]]]; [left|right].
  - apply (proj1 (fsub_0 F _ _)) in A, B, C, D. destruct i1, i2, o1, o2. cbn in *. split; congruence.
  - apply (proj1 (fsub_0 F _ _)) in B, D. repeat split; auto. apply (proj1 (fsub_0 F _ _)). etransitivity; [|exact C]. ring.
Qed.
Lemma gate_complete i1 i2 o1 o2 x1 x2 x3 : kept i1 i2 o1 o2 \/ merged i1 i2 o1 o2 -> gate_prod i1 i2 o1 o2 x1 x2 x3 = 0.
Proof.
  unfold gate_prod, form. intros [[<- <-]|[A [B [C D]]]]; [ring|]. rewrite A, B, C, D, B. ring.
Qed.
End Shuffle.
