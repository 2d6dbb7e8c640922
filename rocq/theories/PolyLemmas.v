(** Single coefficients, products of linear factors, uniqueness of division, and the
    transforms. *)
From Coq Require Import List Arith NArith ZArith Bool Lia Field Ring.
From Verif Require Import Base Field Power PolyModel PolySpec PolyProofs.
Import ListNotations.
Local Open Scope F_scope.

Section Lemmas.
Context {F : Field}.
Add Field Fq : (f_th F).
Implicit Types (p q d : list F) (x y z w : F).

Lemma fsum_nil : fsum ([] : list F) = 0. Proof. reflexivity. Qed.
Lemma fprod_nil : fprod ([] : list F) = 1. Proof. reflexivity. Qed.

(** ** [add_coef], [from_zeroes] *)
Lemma push_ok order : forall fuel p, (order + 1 <= length p + fuel)%nat ->
  exists k, push_zeroes fuel order p = p ++ repeat 0 k /\ ((order < length p + k)%nat \/ (p = [] /\ order = 0%nat /\ k = 0%nat)).
Proof.
  induction fuel as [|f IH]; intros p L; cbn [push_zeroes].
  - exists 0%nat. rewrite app_nil_r. split; [reflexivity|left; lia].
  - unfold degree. destruct (Nat.ltb_spec (length p - 1) order) as [l|g].
    + destruct (IH (p ++ [0])) as [k [E X]]; [rewrite app_length; cbn; lia|]. exists (S k). rewrite E, <- app_assoc. split; [reflexivity|].
      destruct X as [X|[X _]]; [left; rewrite app_length in X; cbn in X; lia|]. now destruct p.
    + exists 0%nat. rewrite app_nil_r. split; [reflexivity|]. destruct p; [right; cbn in g; repeat split; lia|left; cbn in *; lia].
Qed.
Lemma add_at_coef i c p j : (i < length p)%nat -> coef (add_at i c p) j = coef p j + (if Nat.eqb j i then c else 0).
Proof.
  revert i j. induction p as [|a p IH]; intros [|i] j L; cbn in L; try lia; destruct j as [|j]; cbn [add_at Nat.eqb]; rewrite ?coef_cons.
  - reflexivity.
  - ring.
  - unfold coef. cbn. ring.
  - apply IH. lia.
Qed.
Lemma add_coef_ok p c order : p <> [] \/ order <> 0%nat -> exists q, add_coef p c order = Ok q /\
  forall i, coef q i = coef p i + (if Nat.eqb i order then c else 0).
Proof.
  intros N. unfold add_coef. destruct (push_ok order (S (S order)) p) as [k [E X]]; [lia|]. rewrite E.
  destruct X as [X|[-> [-> _]]]; [|exfalso; destruct N as [N|N]; now apply N].
  replace (Nat.ltb order (length (p ++ repeat 0 k))) with true by (symmetry; apply Nat.ltb_lt; rewrite app_length, repeat_length; exact X).
  eexists. split; [reflexivity|]. intros i. rewrite (trim_same _ i), add_at_coef by (rewrite app_length, repeat_length; exact X). now rewrite coef_app_zeroes.
Qed.
Lemma sub_nonempty p q : p <> [] -> normal (sub p q).
Proof.
  intros N. apply trim_normal. intros X. apply app_eq_nil in X. destruct X as [A X]. apply app_eq_nil in X. destruct X as [B _].
  destruct p as [|a p]; [now apply N|]. destruct q as [|b q]; [cbn in B; discriminate|cbn in A; discriminate].
Qed.
Lemma normal_length p m : normal p -> coef p m <> 0 -> (forall j, (m < j)%nat -> coef p j = 0) -> length p = S m.
Proof.
  intros N C Z. assert (L : (m < length p)%nat) by (destruct (Nat.lt_ge_cases m (length p)) as [l|g]; [exact l|exfalso; apply C; now apply coef_out]).
  destruct (Nat.eq_dec (length p) (S m)) as [e|n]; [exact e|exfalso].
  destruct N as [->|[A B]]; [cbn in *; lia|]. apply B. rewrite last_coef by exact A. apply Z. lia.
Qed.
Lemma from_zeroes_ok (zs : list F) : (forall x, hv (from_zeroes zs) x = fprod (map (fun z => x - z) zs)) /\
  normal (from_zeroes zs) /\ length (from_zeroes zs) = S (length zs) /\ last (from_zeroes zs) 0 = 1.
Proof.
  unfold from_zeroes.
  assert (X : forall zs r m, r <> [] -> coef r m = 1 -> (forall j, (m < j)%nat -> coef r j = 0) ->
     let s := fold_left (fun r z => sub (0 :: r) (mul_scalar r z)) zs r in
     s <> [] /\ coef s (m + length zs) = 1 /\ (forall j, (m + length zs < j)%nat -> coef s j = 0) /\
     forall x, hv s x = hv r x * fprod (map (fun z => x - z) zs)).
  { clear. induction zs as [|z zs IH]; intros r m N C Z; cbv zeta; cbn [fold_left length map].
    - rewrite Nat.add_0_r. repeat split; auto. intros x. rewrite fprod_nil. ring.
    - destruct (IH (sub (0 :: r) (mul_scalar r z)) (S m)) as [A [B [D E]]].
      + apply normal_nonempty, sub_nonempty. discriminate.
      + rewrite sub_coefs, mul_scalar_coefs, coef_cons, C, (Z (S m)) by lia. ring.
      + intros [|j] Hj; [lia|]. rewrite sub_coefs, mul_scalar_coefs, coef_cons, !Z by lia. ring.
      + replace (m + S (length zs))%nat with (S m + length zs)%nat by lia. repeat split; auto.
        intros x. rewrite E, fprod_cons. rewrite (hv_lin (0 :: r) r _ 1 (fopp z)) by (intros i; rewrite sub_coefs, mul_scalar_coefs; ring). cbn [hv]. ring. }
  destruct (X zs pone 0%nat) as [A [B [D E]]]; [discriminate|reflexivity|intros [|[|j]] Hj; [lia|reflexivity..]|].
  cbn [Nat.add] in *. set (s := fold_left _ zs pone) in *. clearbody s.
  assert (Nt : normal (trim s)) by now apply trim_normal.
  assert (L : length (trim s) = S (length zs)).
  { apply normal_length; [exact Nt|rewrite (trim_same s _), B; apply f1_neq_0|]. intros j Hj. rewrite (trim_same s _). now apply D. }
  split; [|split; [exact Nt|split; [exact L|]]].
  - intros x. rewrite trim_hv, E. cbn [pone from_coefs trim rev app pop_zeroes hv]. ring.
  - rewrite last_coef by now apply normal_nonempty. rewrite L. cbn [Nat.sub]. rewrite Nat.sub_0_r, (trim_same s _). exact B.
Qed.

(** ** Uniqueness of quotient and remainder *)
Lemma product_top p d m : (forall j, (m < j)%nat -> coef p j = 0) -> d <> [] ->
  product_coef p d (m + (length d - 1)) = coef p m * coef d (length d - 1).
Proof.
  intros Z Nd. unfold product_coef. set (l := (length d - 1)%nat).
  transitivity (fsum (map (fun i => 0 + (if Nat.eqb i m then coef p m * coef d l else 0)) (seq 0 (S (m + l))))).
  - apply fsum_ext. intros i Hi. apply in_seq in Hi. destruct (Nat.eqb_spec i m) as [->|n].
    + replace (m + l - m)%nat with l by lia. ring.
    + destruct (Nat.lt_ge_cases i m) as [a|a]; [rewrite (coef_out d) by (unfold l; lia)|rewrite Z by lia]; ring.
  - rewrite (sum_point (fun _ => 0) m), fsum_zero by reflexivity. cbn [Nat.leb andb Nat.add].
    replace (Nat.ltb m (S (m + l))) with true by (symmetry; apply Nat.ltb_lt; lia). ring.
Qed.
Lemma div_unique d q r q' r' : d <> [] -> last d 0 <> 0 -> degree_lt r (length d - 1) -> degree_lt r' (length d - 1) ->
  (forall n, product_coef q d n + coef r n = product_coef q' d n + coef r' n) -> same_poly q q' /\ same_poly r r'.
Proof.
  intros Nd Nl R R' E. rewrite last_coef in Nl by exact Nd.
  assert (P : forall n, product_coef (sub q q') d n = coef r' n - coef r n).
  { intros n. transitivity (product_coef q d n - product_coef q' d n).
    - unfold product_coef. transitivity (fsum (map (fun i => coef q i * coef d (n - i) + (fopp 1) * (coef q' i * coef d (n - i))) (seq 0 (S n)))).
      + apply fsum_ext. intros i _. rewrite sub_coefs. ring.
      + rewrite fsum_plus, fsum_scale. ring.
    - specialize (E n). transitivity (product_coef q d n + coef r n - product_coef q' d n - coef r n); [ring|]. rewrite E. ring. }
  assert (Z : forall k m, (length (sub q q') <= m + k)%nat -> forall j, (m <= j)%nat -> coef (sub q q') j = 0).
  { assert (Y : forall k, (k <= length (sub q q'))%nat -> forall j, (length (sub q q') - k <= j)%nat -> coef (sub q q') j = 0).
    { induction k as [|k IH]; intros Lk j Hj; [apply coef_out; lia|].
      destruct (Nat.eq_dec j (length (sub q q') - S k)) as [->|n]; [|apply IH; lia].
      set (m := (length (sub q q') - S k)%nat) in *.
      assert (T : product_coef (sub q q') d (m + (length d - 1)) = coef (sub q q') m * coef d (length d - 1)).
      { apply product_top; [|exact Nd]. intros j' Hj'. apply IH; unfold m in Hj'; lia. }
      rewrite P, R, R' in T by lia. destruct (fmul_0 F (coef (sub q q') m) (coef d (length d - 1))) as [H|H]; [rewrite <- T; ring|exact H|now elim Nl]. }
    intros k m L j Hj. destruct (Nat.lt_ge_cases j (length (sub q q'))) as [l|g]; [|now apply coef_out].
    apply (Y (length (sub q q'))); lia. }
  assert (Q : same_poly q q').
  { intros i. apply (proj1 (fsub_0 F _ _)). rewrite <- sub_coefs. apply (Z (length (sub q q')) 0%nat); lia. }
  split; [exact Q|]. intros n. specialize (E n). rewrite (product_same q q' d n Q) in E.
  transitivity (product_coef q' d n + coef r n - product_coef q' d n); [ring|]. rewrite E. ring.
Qed.

(** ** Roots of unity *)
Lemma fpow_gcd w a b : (0 < a)%nat -> fpow w a = 1 -> fpow w b = 1 -> fpow w (Nat.gcd a b) = 1.
Proof.
  intros Pa A B. destruct (Nat.gcd_bezout_pos a b Pa) as [u [v E]].
  transitivity (fpow w (Nat.gcd a b) * fpow w (v * b)).
  - rewrite (Nat.mul_comm v b), fpow_mul, B, fpow_1_l. ring.
  - rewrite <- fpow_add, <- E, Nat.mul_comm, fpow_mul, A. apply fpow_1_l.
Qed.
Lemma odd_divides k : forall m b, Nat.even m = false -> Nat.divide m (b * 2 ^ k) -> Nat.divide m b.
Proof.
  induction k as [|k IH]; intros m b O D; [now rewrite Nat.mul_1_r in D|].
  apply IH; [exact O|]. apply (Nat.gauss m 2).
  - replace (2 * (b * 2 ^ k))%nat with (b * 2 ^ S k)%nat by (cbn [Nat.pow]; lia). exact D.
  - pose proof (Nat.gcd_divide_l m 2) as G1. pose proof (Nat.gcd_divide_r m 2) as G2. set (g := Nat.gcd m 2) in *.
    assert (g <> 0)%nat by (intros X; rewrite X in G2; destruct G2 as [x Hx]; lia).
    assert (g <= 2)%nat by (apply Nat.divide_pos_le; [lia|exact G2]).
    assert (g <> 2)%nat; [|lia]. intros X. rewrite X in G1. destruct G1 as [x Hx]. rewrite Hx, Nat.even_mul, orb_true_r in O. discriminate.
Qed.
Lemma primitive_check n w k b : n = (b * 2 ^ k)%nat -> (b = 1 \/ b = 3)%nat -> fpow w n = 1 ->
  (Nat.even n = true -> fpow w (n / 2) <> 1) -> (b = 3%nat -> fpow w (n / 3) <> 1) -> primitive n w.
Proof.
  intros En Hb E H2 H3. split; [exact E|]. intros d Hd X.
  assert (Pn : (0 < n)%nat) by lia.
  pose proof (fpow_gcd w d n (proj1 Hd) X E) as G. set (g := Nat.gcd d n) in *.
  assert (Gn : Nat.divide g n) by apply Nat.gcd_divide_r. assert (Gd : Nat.divide g d) by apply Nat.gcd_divide_l.
  assert (Lg : (g <= d)%nat) by (apply Nat.divide_pos_le; [lia|exact Gd]).
  destruct Gn as [m Hm]. assert (m <> 1)%nat by (intros ->; lia). assert (m <> 0)%nat by (intros ->; lia).
  assert (P : forall e, (0 < e)%nat -> Nat.divide e m -> fpow w (n / e) = 1).
  { intros e Pe [c Hc]. replace (n / e)%nat with (g * c)%nat; [rewrite fpow_mul, G; apply fpow_1_l|].
    apply (Nat.div_unique n e (g * c) 0); [exact Pe|]. rewrite Hm, Hc. lia. }
  destruct (Nat.even m) eqn:Em.
  - apply Nat.even_spec in Em. destruct Em as [c Hc]. apply H2; [rewrite Hm, Nat.even_mul, Hc, Nat.even_mul; reflexivity|].
    apply P; [lia|]. exists c. lia.
  - assert (D : Nat.divide m b). { apply (odd_divides k); [exact Em|]. exists g. rewrite <- En, Hm. lia. }
    assert (Lm : (m <= b)%nat) by (apply Nat.divide_pos_le; [lia|exact D]).
    destruct Hb as [->| ->]; [lia|]. assert (m <> 2)%nat by (intros ->; discriminate). assert (m = 3)%nat by lia.
    apply H3; [reflexivity|]. apply P; [lia|]. subst m. apply Nat.divide_refl.
Qed.
Lemma primitive_half n w : primitive (2 * n) w -> (0 < n)%nat -> fpow w n = fopp 1.
Proof.
  intros [E N] P. assert (S : fpow w n * fpow w n = 1) by (rewrite <- fpow_add; replace (n + n)%nat with (2 * n)%nat by lia; exact E).
  assert (X : (fpow w n - 1) * (fpow w n + 1) = 0) by (transitivity (fpow w n * fpow w n - 1); [ring|]; rewrite S; ring).
  apply fmul_0 in X. destruct X as [X|X].
  - exfalso. apply (N n); [lia|]. now apply (proj1 (fsub_0 F _ _)).
  - transitivity (fpow w n + 1 - 1); [ring|]. rewrite X. ring.
Qed.
Lemma primitive_inj n w i j : primitive n w -> (i < n)%nat -> (j < n)%nat -> fpow w i = fpow w j -> i = j.
Proof.
  intros [E N].
  assert (W : w <> 0 \/ n = 0%nat). { destruct n; [now right|left]. intros ->. cbn [fpow] in E. apply (f1_neq_0 F). rewrite <- E. ring. }
  assert (K : forall i j, (i <= j)%nat -> (j < n)%nat -> fpow w i = fpow w j -> i = j).
  { intros a b L Hb X. destruct (Nat.eq_dec a b) as [e|ne]; [exact e|exfalso]. apply (N (b - a)%nat); [lia|].
    replace b with (a + (b - a))%nat in X by lia. rewrite fpow_add in X.
    assert (Nz : fpow w a <> 0) by (apply fpow_neq_0; destruct W; [assumption|lia]).
    apply (fmul_cancel F (fpow w a)); [exact Nz|]. replace (a + (b - a))%nat with b in * by lia. rewrite <- X. ring. }
  intros Hi Hj X. destruct (Nat.le_ge_cases i j) as [l|g]; [now apply K|symmetry; apply K; auto].
Qed.
Definition powers w n : list F := map (fun i => fpow w i) (seq 0 n).
Lemma powers_nodup n w : primitive n w -> NoDup (powers w n).
Proof.
  intros P. unfold powers. assert (X : forall l, NoDup l -> (forall i, In i l -> (i < n)%nat) -> NoDup (map (fun i => fpow w i) l)).
  { induction l as [|a l IH]; intros N B; cbn [map]; [constructor|]. inversion N as [|? ? Na N']; subst. constructor.
    - intros H. apply in_map_iff in H. destruct H as [b [Eb Hb]]. apply Na. replace a with b; [exact Hb|]. apply (primitive_inj n w); auto; apply B; [now right|now left].
    - apply IH; [exact N'|]. intros i Hi. apply B. now right. }
  apply X; [apply seq_NoDup|]. intros i Hi. apply in_seq in Hi. lia.
Qed.
Lemma geometric x n : (x - 1) * fsum (map (fun j => fpow x j) (seq 0 n)) = fpow x n - 1.
Proof.
  induction n as [|n IH]; [cbn; ring|]. rewrite seq_S, map_app, fsum_app. cbn [map Nat.add fpow].
  transitivity ((x - 1) * fsum (map (fun j => fpow x j) (seq 0 n)) + (x - 1) * fpow x n); [rewrite fsum_cons, fsum_nil; ring|]. rewrite IH. ring.
Qed.
Lemma fofN_sum n : fofN (F := F) (N.of_nat n) = fsum (map (fun _ => 1) (seq 0 n)).
Proof.
  induction n as [|n IH]; [reflexivity|]. rewrite seq_S, map_app, fsum_app, <- IH. unfold fofN. rewrite Nat2N.inj_succ, N2Z.inj_succ. unfold Z.succ.
  rewrite fofZ_add. cbn [map]. rewrite fsum_cons, fsum_nil. rewrite fofZ_1. ring.
Qed.
Lemma geo_root n x : fpow x n = 1 -> fsum (map (fun j => fpow x j) (seq 0 n)) = if feqb x 1 then fofN (N.of_nat n) else 0.
Proof.
  intros E. destruct (feqb_spec x 1) as [->|N].
  - rewrite fofN_sum. apply fsum_ext. intros i _. apply fpow_1_l.
  - pose proof (geometric x n) as G. rewrite E in G. destruct (fmul_0 F (x - 1) (fsum (map (fun j => fpow x j) (seq 0 n)))) as [H|H]; [rewrite G; ring| |exact H].
    exfalso. apply N. now apply (proj1 (fsub_0 F _ _)).
Qed.
(** In a field with a primitive n-th root of unity, n is not zero. *)
Lemma primitive_size n w : primitive n w -> (0 < n)%nat -> fofN (F := F) (N.of_nat n) <> 0.
Proof.
  intros P Pn Z. assert (X : forall i, coef (repeat (1 : F) n) i = 0).
  { apply (roots_bound (powers w n)); [now apply powers_nodup|unfold powers; rewrite repeat_length, map_length, seq_length; lia|].
    intros z Hz. apply in_map_iff in Hz. destruct Hz as [i [<- Hi]]. rewrite hv_sum, repeat_length.
    transitivity (fsum (map (fun j => fpow (fpow w i) j) (seq 0 n))).
    - apply fsum_ext. intros j Hj. apply in_seq in Hj. replace (coef (repeat (1 : F) n) j) with (1 : F); [ring|]. symmetry.
      unfold coef. clear - Hj. assert (H : (j < n)%nat) by lia. clear Hj. revert j H. induction n as [|n IH]; intros [|j] H; try lia; cbn [repeat nth]; [reflexivity|apply IH; lia].
    - rewrite geo_root, Z; [now destruct (feqb _ _)|]. rewrite <- fpow_mul, Nat.mul_comm, fpow_mul, (proj1 P). apply fpow_1_l. }
  specialize (X 0%nat). destruct n; [lia|]. unfold coef in X. cbn [repeat nth] in X. now apply (f1_neq_0 F).
Qed.
End Lemmas.
