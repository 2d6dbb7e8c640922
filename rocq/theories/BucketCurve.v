(** The Jacobian formulas compute the group law. *)
From Coq Require Import List ZArith Bool Lia Field Ring.
From Verif Require Import Base Field BucketModel BucketSpec.
Import ListNotations.

Section Curve.
Context {K F : Field} {M : Mod F} (C : Curve K F M).
Add Field Kc : (f_th K).
Local Open Scope F_scope.
Implicit Types (a b : M) (p q : jac K).
Local Notation two := (1 + 1 : K).
Let T2 : two <> 0 := two_neq_0 _ _ _ C.

Lemma eqb_true (x y : K) : feqb x y = true <-> x = y.
Proof. destruct (feqb_spec x y); split; auto; discriminate. Qed.
Lemma opp_sum a b : xy C b = xy C (mopp a) -> madd a b = m0.
Proof. intros H. apply xy_inj in H. subst b. apply madd_opp. Qed.
(** Two points with the same abscissa are equal or opposite. *)
Lemma same_x a b x y1 y2 : xy C a = Some (x, y1) -> xy C b = Some (x, y2) -> y1 <> y2 -> madd a b = m0.
Proof.
  intros H1 H2 N. apply opp_sum. rewrite (xy_neg _ _ _ C _ _ _ H1), H2. do 2 f_equal. pose proof (xy_curve _ _ _ C _ _ _ H1) as E1. pose proof (xy_curve _ _ _ C _ _ _ H2) as E2.
  assert (E : (y2 - y1) * (y2 + y1) = 0) by (replace ((y2 - y1) * (y2 + y1)) with (y2 * y2 - y1 * y1) by ring; rewrite E1, E2; ring).
  apply fmul_0 in E. destruct E as [E|E]; [apply (proj1 (fsub_0 K _ _)) in E; congruence|]. replace y2 with ((y2 + y1) - y1) by ring. rewrite E. ring.
Qed.
Lemma y_zero a x : xy C a = Some (x, 0) -> madd a a = m0.
Proof. intros H. apply opp_sum. rewrite (xy_neg _ _ _ C _ _ _ H), H. do 2 f_equal. ring. Qed.
(** A finite Jacobian point in terms of its affine coordinates. *)
Lemma jac_finite p a : jz p <> 0 -> jac_is C p a -> exists x y, xy C a = Some (x, y) /\ jx p = x * (jz p * jz p) /\ jy p = y * (jz p * jz p * jz p).
Proof. intros NZ [[Z _]|[_ H]]; [contradiction|]. eexists _, _. split; [exact H|]. split; field; exact NZ. Qed.
Lemma jac_intro p a x y : xy C a = Some (x, y) -> jz p <> 0 -> jx p = x * (jz p * jz p) -> jy p = y * (jz p * jz p * jz p) -> jac_is C p a.
Proof. intros H NZ E1 E2. right. split; [exact NZ|]. rewrite H. do 2 f_equal; [rewrite E1|rewrite E2]; field; exact NZ. Qed.
Lemma jzero_is : jac_is C jzero m0. Proof. left. split; reflexivity. Qed.
Lemma n3 (x y z : K) : x <> 0 -> y <> 0 -> z <> 0 -> x * y * z <> 0.
Proof. intros. apply fmul_neq_0; [apply fmul_neq_0|]; assumption. Qed.

Lemma jdouble_is p a : jac_is C p a -> jac_is C (jdouble p) (madd a a).
Proof.
  intros H. unfold jdouble. destruct (feqb_spec (jz p) 0) as [Z|NZ].
  - destruct H as [[_ ->]|[N _]]; [|contradiction]. left. split; [exact Z|]. apply madd_0.
  - destruct (jac_finite p a NZ H) as [x [y [E [EX EY]]]]. destruct p as [X Y Z]. cbn [jx jy jz] in *. subst X Y. clear H.
    destruct (f_dec y 0) as [->|NY].
    + left. split; [cbn [jz]; ring|]. apply (y_zero _ _ E).
    + pose proof (xy_tangent _ _ _ C _ _ _ E NY) as H. cbv zeta in H.
      eapply jac_intro; [exact H| | |]; cbn [jx jy jz]; [|field; split; assumption|field; split; assumption].
      intros Q. apply fmul_0 in Q. destruct Q as [Q|Q]; [exact (T2 Q)|]. revert Q. repeat apply fmul_neq_0; assumption.
Qed.
Lemma jadd_is p q a b : jac_is C p a -> jac_is C q b -> jac_is C (jadd p q) (madd a b).
Proof.
  intros H Hq. unfold jadd. destruct (feqb_spec (jz p) 0) as [Z|NZ].
  { destruct H as [[_ ->]|[N _]]; [|contradiction]. rewrite madd_0. exact Hq. }
  destruct (feqb_spec (jz q) 0) as [Z|NZ'].
  { destruct Hq as [[_ ->]|[N _]]; [|contradiction]. rewrite madd_0_r. exact H. }
  destruct (jac_finite p a NZ H) as [x1 [y1 [E1 [EX1 EY1]]]]. destruct (jac_finite q b NZ' Hq) as [x2 [y2 [E2 [EX2 EY2]]]].
  pose proof (jdouble_is p a H) as HD. clear H Hq. destruct p as [X1 Y1 Z1], q as [X2 Y2 Z2]. cbn [jx jy jz] in *. subst X1 Y1 X2 Y2. cbv zeta.
  assert (N2 : (Z1 * Z1) * (Z2 * Z2) <> 0) by (repeat apply fmul_neq_0; assumption). assert (N3 : (Z1 * Z1 * Z1) * (Z2 * Z2 * Z2) <> 0) by (repeat apply fmul_neq_0; assumption).
  assert (U : x1 * (Z1 * Z1) * (Z2 * Z2) = x2 * (Z2 * Z2) * (Z1 * Z1) <-> x1 = x2).
  { split; [|intros ->; ring]. intros Q. apply (fmul_cancel K ((Z1 * Z1) * (Z2 * Z2))); [assumption|]. etransitivity; [|etransitivity; [exact Q|]]; ring. }
  assert (V : y1 * (Z1 * Z1 * Z1) * Z2 * (Z2 * Z2) = y2 * (Z2 * Z2 * Z2) * Z1 * (Z1 * Z1) <-> y1 = y2).
  { split; [|intros ->; ring]. intros Q. apply (fmul_cancel K ((Z1 * Z1 * Z1) * (Z2 * Z2 * Z2))); [assumption|]. etransitivity; [|etransitivity; [exact Q|]]; ring. }
  destruct (f_dec x1 x2) as [EX|NX].
  - subst x2. rewrite (proj2 (eqb_true _ _) (proj2 U eq_refl)). cbn [andb]. destruct (feqb_spec (y1 * (Z1 * Z1 * Z1) * Z2 * (Z2 * Z2)) (y2 * (Z2 * Z2 * Z2) * Z1 * (Z1 * Z1))) as [Q|Q].
    + apply V in Q. subst y2. assert (a = b) by (apply (xy_inj _ _ _ C); congruence). subst b. exact HD.
    + left. split; [cbn [jz]; ring|]. apply (same_x a b x1 y1 y2 E1 E2). intros G. apply Q, V, G.
  - destruct (feqb_spec (x1 * (Z1 * Z1) * (Z2 * Z2)) (x2 * (Z2 * Z2) * (Z1 * Z1))) as [Q|Q]; [exfalso; apply NX, U, Q|]. cbn [andb].
    pose proof (xy_chord _ _ _ C _ _ _ _ _ _ E1 E2 NX) as H. cbv zeta in H. assert (D : x2 - x1 <> 0) by (intros G; apply (proj1 (fsub_0 K _ _)) in G; congruence).
    eapply jac_intro; [exact H| | |]; cbn [jx jy jz]; [|field; exact D|field; exact D].
    assert (G : ((Z1 + Z2) * (Z1 + Z2) - Z1 * Z1 - Z2 * Z2) * (x2 * (Z2 * Z2) * (Z1 * Z1) - x1 * (Z1 * Z1) * (Z2 * Z2)) = two * (Z1 * Z2) * ((Z1 * Z1) * (Z2 * Z2)) * (x2 - x1)) by ring.
    rewrite G. repeat apply fmul_neq_0; assumption.
Qed.
Lemma jmixed_jadd p (q : affine K) : ainf q = false -> jmixed p q = jadd p (mkJac (ax q) (ay q) 1).
Proof.
  intros H. unfold jmixed, jadd. rewrite H. cbn [jx jy jz]. destruct (feqb_spec (jz p) 0); [reflexivity|]. destruct (feqb_spec (1 : K) 0) as [E|_]; [exfalso; exact (f1_neq_0 K E)|].
  cbv zeta. replace (jx p * (1 * 1)) with (jx p) by ring. replace (jy p * 1 * (1 * 1)) with (jy p) by ring.
  destruct (feqb (jx p) (ax q * (jz p * jz p)) && feqb (jy p) (ay q * jz p * (jz p * jz p))); [reflexivity|]. f_equal; ring.
Qed.
Lemma jmixed_is p (q : affine K) a b : jac_is C p a -> affine_is C q b -> jac_is C (jmixed p q) (madd a b).
Proof.
  intros H Hq. unfold affine_is in Hq. destruct (ainf q) eqn:I.
  - subst b. rewrite madd_0_r. unfold jmixed. rewrite I. exact H.
  - rewrite jmixed_jadd by exact I. apply jadd_is; [exact H|]. apply (jac_intro _ b (ax q) (ay q)); cbn [jx jy jz]; [exact Hq|apply f1_neq_0|ring|ring].
Qed.
(** Two points of different abscissas are added correctly by the affine formula. *)
Lemma affine_add_is (p q : affine K) a b : affine_is C p a -> affine_is C q b -> ainf p = false -> ainf q = false -> a <> b -> a <> mopp b -> affine_is C (affine_add p q) (madd a b).
Proof.
  intros Hp Hq Ip Iq N1 N2. unfold affine_is in *. rewrite Ip in Hp. rewrite Iq in Hq. cbn [affine_add ainf].
  assert (NX : ax p <> ax q).
  { intros E. rewrite <- E in Hq. destruct (f_dec (ay p) (ay q)) as [EY|NY].
    - apply N1. apply (xy_inj _ _ _ C). congruence.
    - apply N2. pose proof (same_x a b _ _ _ Hp Hq NY) as Z. apply (madd_cancel b). rewrite madd_opp, madd_comm. exact Z. }
  pose proof (xy_chord _ _ _ C _ _ _ _ _ _ Hp Hq NX) as H. cbv zeta in H. rewrite H. unfold affine_add, inv0. cbv zeta. cbn [ax ay]. assert (D : ax q - ax p <> 0) by (intros G; apply (proj1 (fsub_0 K _ _)) in G; congruence).
  destruct (feqb_spec (ax q - ax p) 0); [contradiction|]. do 2 f_equal; field; exact D.
Qed.
Lemma finite_is (q : affine K) b : affine_is C q b -> b <> m0 -> ainf q = false.
Proof. unfold affine_is. destruct (ainf q); [contradiction|reflexivity]. Qed.
End Curve.

(** *** Points of other curves *)
(** The formulas never use the coefficient b: points on [y^2 = x^3 + b'] stay there. *)
Section Other.
Context {K : Field} (b' : K).
Add Field Ko : (f_th K).
Local Open Scope F_scope.
Definition on (p : jac K) : Prop := jz p = 0 \/ jy p * jy p = jx p * jx p * jx p + b' * (jz p * jz p * jz p * (jz p * jz p * jz p)).
Lemma jdouble_on p : on p -> on (jdouble p).
Proof.
  intros H. unfold jdouble. destruct (feqb_spec (jz p) 0) as [Z|NZ]; [exact H|]. destruct H as [Z|H]; [contradiction|]. right. destruct p as [X Y Z]. cbn [jx jy jz] in *. cbv zeta.
  set (B := Y * Y) in *. replace (Z * Y) with (Y * Z) by ring.
  replace ((1 + 1) * (Y * Z) * ((1 + 1) * (Y * Z)) * ((1 + 1) * (Y * Z)) * ((1 + 1) * (Y * Z) * ((1 + 1) * (Y * Z)) * ((1 + 1) * (Y * Z)))) with ((1 + 1) * (1 + 1) * (1 + 1) * (1 + 1) * (1 + 1) * (1 + 1) * (B * B * B) * (Z * Z * Z * (Z * Z * Z))) by (unfold B; ring).
  assert (E : b' * (Z * Z * Z * (Z * Z * Z)) = B - X * X * X) by (rewrite H; ring). set (Z6 := Z * Z * Z * (Z * Z * Z)) in *.
  replace (b' * ((1 + 1) * (1 + 1) * (1 + 1) * (1 + 1) * (1 + 1) * (1 + 1) * (B * B * B) * Z6)) with ((1 + 1) * (1 + 1) * (1 + 1) * (1 + 1) * (1 + 1) * (1 + 1) * (B * B * B) * (b' * Z6)) by ring. rewrite E. ring.
Qed.
Lemma jadd_on p q : on p -> on q -> on (jadd p q).
Proof.
  intros H H'. unfold jadd. destruct (feqb_spec (jz p) 0) as [Z|NZ]; [exact H'|]. destruct (feqb_spec (jz q) 0) as [Z|NZ']; [exact H|].
  pose proof (jdouble_on p H) as HD. destruct H as [Z|H]; [contradiction|]. destruct H' as [Z|H']; [contradiction|]. cbv zeta. destruct (_ && _); [exact HD|]. clear HD. right.
  destruct p as [X1 Y1 Z1], q as [X2 Y2 Z2]. cbn [jx jy jz] in *.
  assert (S1 : Y1 * Z2 * (Z2 * Z2) * (Y1 * Z2 * (Z2 * Z2)) = X1 * (Z2 * Z2) * (X1 * (Z2 * Z2)) * (X1 * (Z2 * Z2)) + b' * (Z1 * Z2 * (Z1 * Z2) * (Z1 * Z2) * (Z1 * Z2 * (Z1 * Z2) * (Z1 * Z2)))).
  { replace (Y1 * Z2 * (Z2 * Z2) * (Y1 * Z2 * (Z2 * Z2))) with (Y1 * Y1 * (Z2 * Z2 * Z2 * (Z2 * Z2 * Z2))) by ring. rewrite H. ring. }
  assert (S2 : Y2 * Z1 * (Z1 * Z1) * (Y2 * Z1 * (Z1 * Z1)) = X2 * (Z1 * Z1) * (X2 * (Z1 * Z1)) * (X2 * (Z1 * Z1)) + b' * (Z1 * Z2 * (Z1 * Z2) * (Z1 * Z2) * (Z1 * Z2 * (Z1 * Z2) * (Z1 * Z2)))).
  { replace (Y2 * Z1 * (Z1 * Z1) * (Y2 * Z1 * (Z1 * Z1))) with (Y2 * Y2 * (Z1 * Z1 * Z1 * (Z1 * Z1 * Z1))) by ring. rewrite H'. ring. }
  set (s1 := Y1 * Z2 * (Z2 * Z2)) in *. set (s2 := Y2 * Z1 * (Z1 * Z1)) in *. set (u1 := X1 * (Z2 * Z2)) in *. set (u2 := X2 * (Z1 * Z1)) in *.
  replace ((Z1 + Z2) * (Z1 + Z2) - Z1 * Z1 - Z2 * Z2) with ((1 + 1) * (Z1 * Z2)) by ring. set (z := Z1 * Z2) in *. clearbody s1 s2 u1 u2 z. clear H H'.
  set (bz := b' * (z * z * z * (z * z * z))) in *.
  assert (G : b' * ((1 + 1) * z * (u2 - u1) * ((1 + 1) * z * (u2 - u1)) * ((1 + 1) * z * (u2 - u1)) * ((1 + 1) * z * (u2 - u1) * ((1 + 1) * z * (u2 - u1)) * ((1 + 1) * z * (u2 - u1)))) =
    (1 + 1) * (1 + 1) * (1 + 1) * ((1 + 1) * (1 + 1) * (1 + 1)) * ((u2 - u1) * (u2 - u1) * (u2 - u1) * ((u2 - u1) * (u2 - u1) * (u2 - u1))) * bz) by (unfold bz; ring).
  rewrite G. clear G. clearbody bz.
  assert (B1 : bz = s1 * s1 - u1 * u1 * u1) by (rewrite S1; ring). assert (B2 : s2 * s2 = u2 * u2 * u2 + s1 * s1 - u1 * u1 * u1) by (rewrite S2, B1; ring). subst bz. clear S1 S2.
  apply (proj1 (fsub_0 K _ _)).
  set (h := u2 - u1). set (d := s2 - s1). set (e := d * d - h * h * h - (1 + 1) * (u1 * (h * h))).
  etransitivity; [|etransitivity; [exact (f_equal (fun v => - ((1 + 1) * (1 + 1) * (1 + 1) * ((1 + 1) * (1 + 1) * (1 + 1)) * ((u1 * (h * h) - e) * (h * h * h))) * (v - (u2 * u2 * u2 + s1 * s1 - u1 * u1 * u1))) B2)|ring]]. unfold e, h, d. ring.
Qed.
Lemma jmixed_on p (q : affine K) : on p -> ay q * ay q = ax q * ax q * ax q + b' -> on (jmixed p q).
Proof.
  intros H Hq. destruct (ainf q) eqn:I; [unfold jmixed; rewrite I; exact H|]. rewrite jmixed_jadd by exact I. apply jadd_on; [exact H|]. right. cbn [jx jy jz]. rewrite Hq. ring.
Qed.
End Other.
