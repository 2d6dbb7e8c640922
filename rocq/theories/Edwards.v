(** The twisted Edwards curve [-x^2 + y^2 = 1 + d x^2 y^2] over a field in which
    [-1] is a square and [d] is not: the addition law is defined everywhere and
    makes the points a commutative group.  Nothing here comes from /repo; the
    curve is the one of JubjubPoint (algebra/src/jubjub.rs, a wrapper around the
    external crate ark-ed-on-bls12-381). *)
From Coq Require Import List NArith ZArith Lia Field Ring NsatzTactic.
From Verif Require Import Field.
Local Open Scope F_scope.

Section Edwards.
Context {F : Field} (d : F).
Add Field Ef : (f_th F).

Local Instance E_ops : @Ring_ops F f0 f1 fadd fmul fsub fopp eq := {}.
Local Instance E_ring : @Ring F f0 f1 fadd fmul fsub fopp eq E_ops.
Proof.
  constructor; try exact (@eq_equivalence F);
    try (intros a b Hab c e Hce; cbv in Hab, Hce; subst; reflexivity);
    try (intros a b Hab; cbv in Hab; subst; reflexivity); intros;
    unfold addition, multiplication, subtraction, opposite, zero, one, equality,
      add_notation, mul_notation, sub_notation, opp_notation, zero_notation, one_notation, eq_notation; ring.
Defined.
Local Instance E_cring : Cring (Rr := E_ring).
Proof. red. intros. unfold multiplication, mul_notation, equality, eq_notation. ring. Defined.
Local Instance E_id : Integral_domain (Rcr := E_cring).
Proof.
  split.
  - intros x y. apply fmul_0.
  - intro H. apply (f1_neq_0 F). exact H.
Defined.

(** A point is a pair of coordinates. *)
Definition on_curve (p : F * F) : Prop :=
  let (x, y) := p in - (x * x) + y * y = 1 + d * (x * x) * (y * y).

Definition einf : F * F := (0, 1).
Definition eneg (p : F * F) : F * F := (- fst p, snd p).
Definition eadd (p q : F * F) : F * F :=
  let (x1, y1) := p in let (x2, y2) := q in
  ((x1 * y2 + y1 * x2) / (1 + d * x1 * x2 * y1 * y2),
   (y1 * y2 + x1 * x2) / (1 - d * x1 * x2 * y1 * y2)).


(** The three conditions on the field and the coefficient. *)
Context (Hi : exists i : F, i * i = - (1)) (Hd : forall s : F, s * s <> d) (H2 : (1 + 1 : F) <> 0).

Lemma inv_of (x y : F) : x <> 0 -> exists z, z * x = y.
Proof. intro H. exists (y / x). field. exact H. Qed.

Lemma neq_sym (x y : F) : x <> y -> y <> x. Proof. congruence. Qed.

(** The multiple of a square by [d] is a square only when it is zero. *)
Lemma nonsquare (s t : F) : s * s = d * (t * t) -> t = 0.
Proof.
  intro H. destruct (f_dec t 0) as [E|E]; [exact E|]. exfalso.
  apply (Hd (s / t)). transitivity (s * s / (t * t)); [field; exact E|]. rewrite H. field. exact E.
Qed.

(** A denominator can vanish only where the corresponding numerator does not,
    whether or not the points are on the curve. *)
Lemma den_x (x1 y1 x2 y2 : F) : 1 + d * x1 * x2 * y1 * y2 = 0 -> x1 * y2 + y1 * x2 <> 0.
Proof.
  intros H E. assert (H0 : x1 * y2 = 0) by (apply (nonsquare 1); nsatz).
  apply (f1_neq_0 F). nsatz.
Qed.
Lemma den_y (x1 y1 x2 y2 : F) : 1 - d * x1 * x2 * y1 * y2 = 0 -> y1 * y2 + x1 * x2 <> 0.
Proof.
  intros H E. destruct Hi as [i Hi'].
  assert (H0 : i * (x1 * x2) = 0) by (apply (nonsquare 1); nsatz).
  apply (f1_neq_0 F). nsatz.
Qed.

(** On the curve neither denominator vanishes (Bernstein and Lange). *)
Lemma complete_aux (x1 y1 x2 y2 e : F) : on_curve (x1, y1) -> on_curve (x2, y2) ->
  e = d * x1 * x2 * y1 * y2 -> e * e <> 1.
Proof.
  unfold on_curve. intros H1 H3 He E. destruct Hi as [i Hi'].
  assert (Hp : x1 * y1 * (i * x2 + y2) = 0) by (apply (nonsquare (i * x1 + e * y1)); nsatz).
  assert (Hm : x1 * y1 * (i * x2 - y2) = 0) by (apply (nonsquare (i * x1 - e * y1)); nsatz).
  assert (E0 : (1 + 1) * (x1 * y1 * y2) = 0) by nsatz.
  destruct (fmul_0 _ _ _ E0) as [X|X]; [exact (H2 X)|].
  apply (f1_neq_0 F). rewrite <- E, He. transitivity (d * x2 * (x1 * y1 * y2) * (d * x1 * x2 * y1 * y2)); [ring|].
  rewrite X. ring.
Qed.
Lemma complete_x (x1 y1 x2 y2 : F) : on_curve (x1, y1) -> on_curve (x2, y2) ->
  1 + d * x1 * x2 * y1 * y2 <> 0.
Proof.
  intros H1 H3 E. apply (complete_aux _ _ _ _ _ H1 H3 eq_refl). clear H1 H3. nsatz.
Qed.
Lemma complete_y (x1 y1 x2 y2 : F) : on_curve (x1, y1) -> on_curve (x2, y2) ->
  1 - d * x1 * x2 * y1 * y2 <> 0.
Proof.
  intros H1 H3 E. apply (complete_aux _ _ _ _ _ H1 H3 eq_refl). clear H1 H3. nsatz.
Qed.

(** What the sum is, without divisions. *)
Lemma eadd_spec x1 y1 x2 y2 x3 y3 :
  1 + d * x1 * x2 * y1 * y2 <> 0 -> 1 - d * x1 * x2 * y1 * y2 <> 0 ->
  eadd (x1, y1) (x2, y2) = (x3, y3) <->
  x3 * (1 + d * x1 * x2 * y1 * y2) = x1 * y2 + y1 * x2 /\
  y3 * (1 - d * x1 * x2 * y1 * y2) = y1 * y2 + x1 * x2.
Proof.
  intros Hx Hy. unfold eadd. split.
  - intro E. injection E as <- <-. split; field; assumption.
  - intros [Ex Ey]. f_equal.
    + rewrite <- Ex. field. exact Hx.
    + rewrite <- Ey. field. exact Hy.
Qed.

Lemma einf_on : on_curve einf. Proof. unfold on_curve, einf. ring. Qed.
Lemma eneg_on p : on_curve p -> on_curve (eneg p).
Proof. destruct p as [x y]. unfold on_curve, eneg. cbn. intro H. nsatz. Qed.

Lemma eadd_on p q : on_curve p -> on_curve q -> on_curve (eadd p q).
Proof.
  destruct p as [x1 y1], q as [x2 y2]. intros H1 H3.
  pose proof (complete_x _ _ _ _ H1 H3) as Dx. pose proof (complete_y _ _ _ _ H1 H3) as Dy.
  destruct (eadd (x1, y1) (x2, y2)) as [x3 y3] eqn:E. apply eadd_spec in E as [Ex Ey]; [|assumption..].
  unfold on_curve in *.
  set (A := 1 + d * x1 * x2 * y1 * y2) in *. set (B := 1 - d * x1 * x2 * y1 * y2) in *.
  assert (Hn : A * A * (B * B) <> 0) by (repeat apply fmul_neq_0; assumption).
  apply fsub_0.
  assert (Z0 : A * A * (B * B) * (- (x3 * x3) + y3 * y3 - (1 + d * (x3 * x3) * (y3 * y3))) = 0).
  { transitivity (- ((x3 * A) * (x3 * A) * (B * B)) + (y3 * B) * (y3 * B) * (A * A)
                  - (A * A * (B * B) + d * ((x3 * A) * (x3 * A)) * ((y3 * B) * (y3 * B)))); [ring|].
    rewrite Ex, Ey. unfold A, B. clear - H1 H3. nsatz. }
  destruct (fmul_0 _ _ _ Z0) as [X|X]; [contradiction|exact X].
Qed.

Lemma eadd_comm p q : eadd p q = eadd q p.
Proof. destruct p as [x1 y1], q as [x2 y2]. unfold eadd. f_equal; f_equal; ring. Qed.

Lemma f1_0 : 1 + 0 <> (0 : F). Proof. intro H. apply (f1_neq_0 F). rewrite <- H. ring. Qed.

Lemma eadd_0_l p : eadd einf p = p.
Proof.
  destruct p as [x y]. apply eadd_spec; [| |split; ring];
    intro H; apply (f1_neq_0 F); rewrite <- H; ring.
Qed.
Lemma eadd_0_r p : eadd p einf = p.
Proof. rewrite eadd_comm. apply eadd_0_l. Qed.

Lemma eadd_neg p : on_curve p -> eadd p (eneg p) = einf.
Proof.
  intro H. destruct p as [x y]. unfold eneg, einf. cbn [fst snd].
  pose proof (eneg_on _ H) as Hn. unfold eneg in Hn. cbn [fst snd] in Hn.
  apply eadd_spec; [apply complete_x; assumption|apply complete_y; assumption|].
  unfold on_curve in H. split; [ring|]. nsatz.
Qed.

Lemma eadd_assoc p q r : on_curve p -> on_curve q -> on_curve r ->
  eadd p (eadd q r) = eadd (eadd p q) r.
Proof.
  destruct p as [x1 y1], q as [x2 y2], r as [x3 y3]. intros C1 C2 C3.
  pose proof (eadd_on _ _ C2 C3) as C5. pose proof (eadd_on _ _ C1 C2) as C4.
  destruct (eadd (x2, y2) (x3, y3)) as [x5 y5] eqn:E5.
  destruct (eadd (x1, y1) (x2, y2)) as [x4 y4] eqn:E4.
  pose proof (complete_x _ _ _ _ C1 C2) as Ax. pose proof (complete_y _ _ _ _ C1 C2) as Ay.
  pose proof (complete_x _ _ _ _ C2 C3) as Bx. pose proof (complete_y _ _ _ _ C2 C3) as By.
  apply eadd_spec in E5 as [X5 Y5]; [|assumption..]. apply eadd_spec in E4 as [X4 Y4]; [|assumption..].
  pose proof (complete_x _ _ _ _ C1 C5) as Rx. pose proof (complete_y _ _ _ _ C1 C5) as Ry.
  pose proof (complete_x _ _ _ _ C4 C3) as Lx. pose proof (complete_y _ _ _ _ C4 C3) as Ly.
  destruct (eadd (x1, y1) (x5, y5)) as [x7 y7] eqn:E7. apply eadd_spec in E7 as [X7 Y7]; [|assumption..].
  symmetry. apply eadd_spec; [assumption..|]. clear C4 C5.
  unfold on_curve in *.
  set (a := 1 + d * x1 * x2 * y1 * y2) in *. set (a' := 1 - d * x1 * x2 * y1 * y2) in *.
  set (b := 1 + d * x2 * x3 * y2 * y3) in *. set (b' := 1 - d * x2 * x3 * y2 * y3) in *.
  set (n4 := x1 * y2 + y1 * x2) in *. set (m4 := y1 * y2 + x1 * x2) in *.
  set (n5 := x2 * y3 + y2 * x3) in *. set (m5 := y2 * y3 + x2 * x3) in *.
  assert (Rx' : b * b' + d * x1 * n5 * y1 * m5 <> 0).
  { rewrite <- X5, <- Y5. replace (b * b' + _) with (b * b' * (1 + d * x1 * x5 * y1 * y5)) by ring.
    repeat apply fmul_neq_0; assumption. }
  assert (Ry' : b * b' - d * x1 * n5 * y1 * m5 <> 0).
  { rewrite <- X5, <- Y5. replace (b * b' - _) with (b * b' * (1 - d * x1 * x5 * y1 * y5)) by ring.
    repeat apply fmul_neq_0; assumption. }
  assert (X7' : x7 * (b * b' + d * x1 * n5 * y1 * m5) = b * x1 * m5 + b' * y1 * n5).
  { rewrite <- X5, <- Y5. transitivity (b * b' * (x7 * (1 + d * x1 * x5 * y1 * y5))); [ring|]. rewrite X7. ring. }
  assert (Y7' : y7 * (b * b' - d * x1 * n5 * y1 * m5) = b * y1 * m5 + b' * x1 * n5).
  { rewrite <- X5, <- Y5. transitivity (b * b' * (y7 * (1 - d * x1 * x5 * y1 * y5))); [ring|]. rewrite Y7. ring. }
  assert (Ha : a * a' <> 0) by (apply fmul_neq_0; assumption).
  split.
  - apply (fmul_cancel F (a * a')); [exact Ha|].
    transitivity (x7 * (a * a' + d * (x4 * a) * x3 * (y4 * a') * y3)); [ring|].
    transitivity ((x4 * a) * a' * y3 + (y4 * a') * a * x3); [|ring].
    rewrite X4, Y4. apply (fmul_cancel F (b * b' + d * x1 * n5 * y1 * m5)); [exact Rx'|].
    transitivity ((b * x1 * m5 + b' * y1 * n5) * (a * a' + d * n4 * x3 * m4 * y3)); [rewrite <- X7'; ring|].
    unfold a, a', b, b', n4, m4, n5, m5. clear - C1 C2 C3. nsatz.
  - apply (fmul_cancel F (a * a')); [exact Ha|].
    transitivity (y7 * (a * a' - d * (x4 * a) * x3 * (y4 * a') * y3)); [ring|].
    transitivity ((y4 * a') * a * y3 + (x4 * a) * a' * x3); [|ring].
    rewrite X4, Y4. apply (fmul_cancel F (b * b' - d * x1 * n5 * y1 * m5)); [exact Ry'|].
    transitivity ((b * y1 * m5 + b' * x1 * n5) * (a * a' - d * n4 * x3 * m4 * y3)); [rewrite <- Y7'; ring|].
    unfold a, a', b, b', n4, m4, n5, m5. clear - C1 C2 C3. nsatz.
Qed.

(** Multiples: [emul n P] is the sum of [n] copies of [P]. *)
Fixpoint emul (n : nat) (p : F * F) : F * F :=
  match n with O => einf | S n' => eadd p (emul n' p) end.

Lemma emul_on n p : on_curve p -> on_curve (emul n p).
Proof. intro H. induction n; cbn [emul]; [apply einf_on|apply eadd_on; assumption]. Qed.
Lemma emul_add m n p : on_curve p -> emul (m + n) p = eadd (emul m p) (emul n p).
Proof.
  intro H. induction m as [|m IH]; cbn [emul Nat.add].
  - now rewrite eadd_0_l.
  - rewrite IH. apply eadd_assoc; [assumption|apply emul_on; assumption..].
Qed.
Lemma emul_mul m n p : on_curve p -> emul (m * n) p = emul m (emul n p).
Proof.
  intro H. induction m as [|m IH]; [reflexivity|]. cbn [Nat.mul emul]. rewrite emul_add by exact H. now rewrite IH.
Qed.
Lemma emul_1 p : emul 1 p = p.
Proof. cbn [emul]. apply eadd_0_r. Qed.

End Edwards.
