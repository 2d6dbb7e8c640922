(** Proofs about polynomials: coefficients, values, division, root counting. *)
From Coq Require Import List Arith NArith Bool Lia Field Ring.
From Verif Require Import Base Field PolyModel PolySpec.
Import ListNotations.
Local Open Scope F_scope.

Section Proofs.
Context {F : Field}.
Add Field Fq : (f_th F).
Implicit Types (p q d : list F) (x y z : F).

(** ** Values *)
Fixpoint hv p x : F := match p with [] => 0 | a :: p' => a + x * hv p' x end.
Lemma eval_hv p x : eval p x = hv p x.
Proof.
  unfold eval. assert (X : forall p r v, fst (fold_left (fun rv c => (fst rv + snd rv * c, snd rv * x)) p (r, v)) = r + v * hv p x).
  { clear p. induction p as [|a p IH]; intros r v; cbn [fold_left fst snd hv]; [ring|]. rewrite IH. ring. }
  rewrite X. ring.
Qed.
Lemma fsum_scale (c : F) (A : Type) (f : A -> F) l : fsum (map (fun a => c * f a) l) = c * fsum (map f l).
Proof. induction l as [|a l IH]; cbn [map]; [cbn; ring|]. rewrite !fsum_cons, IH. ring. Qed.
Lemma fsum_ext (A : Type) (f h : A -> F) l : (forall a, In a l -> f a = h a) -> fsum (map f l) = fsum (map h l).
Proof. intros X. f_equal. now apply map_ext_in. Qed.
Lemma fsum_zero (A : Type) (f : A -> F) l : (forall a, In a l -> f a = 0) -> fsum (map f l) = 0.
Proof.
  induction l as [|a l IH]; intros X; [reflexivity|]. cbn [map]. rewrite fsum_cons, X, IH; [ring|intros b Hb; apply X; now right|now left].
Qed.
Lemma fsum_plus (A : Type) (f h : A -> F) l : fsum (map (fun a => f a + h a) l) = fsum (map f l) + fsum (map h l).
Proof. induction l as [|a l IH]; cbn [map]; [cbn; ring|]. rewrite !fsum_cons, IH. ring. Qed.
Lemma hv_sum p x : hv p x = fsum (map (fun i => coef p i * fpow x i) (seq 0 (length p))).
Proof.
  induction p as [|a p IH]; [reflexivity|]. cbn [length seq map hv]. rewrite fsum_cons, <- seq_shift, map_map, IH, <- fsum_scale.
  cbn [coef nth fpow]. replace (a * 1) with a by ring. f_equal. apply fsum_ext. intros i _. unfold coef. cbn [nth]. ring.
Qed.
Lemma eval_value p x : eval p x = value p x.
Proof. rewrite eval_hv. apply hv_sum. Qed.
Lemma hv_app p q x : hv (p ++ q) x = hv p x + fpow x (length p) * hv q x.
Proof. induction p as [|a p IH]; cbn [app hv length fpow]; [ring|]. rewrite IH. ring. Qed.
Lemma hv_zeroes n x : hv (repeat 0 n) x = 0.
Proof. induction n as [|n IH]; cbn [repeat hv]; [reflexivity|]. rewrite IH. ring. Qed.
Lemma coef_cons a p i : coef (a :: p) (S i) = coef p i. Proof. reflexivity. Qed.
Lemma coef_nil i : coef ([] : list F) i = 0. Proof. destruct i; reflexivity. Qed.
Lemma coef_out p i : (length p <= i)%nat -> coef p i = 0. Proof. apply nth_overflow. Qed.
Lemma coef_repeat n i : coef (repeat (0 : F) n) i = 0.
Proof. revert i. induction n as [|n IH]; intros [|i]; try reflexivity. apply IH. Qed.
Lemma hv_zero p x : (forall i, coef p i = 0) -> hv p x = 0.
Proof. induction p as [|a p IH]; intros X; cbn [hv]; [reflexivity|]. rewrite IH by (intros i; apply (X (S i))). rewrite (X 0%nat : a = 0). ring. Qed.
Lemma hv_same p : forall q x, same_poly p q -> hv p x = hv q x.
Proof.
  induction p as [|a p IH]; intros q x E.
  - symmetry. apply hv_zero. intros i. rewrite <- E. apply coef_nil.
  - destruct q as [|b q].
    + apply hv_zero. intros i. rewrite E. apply coef_nil.
    + cbn [hv]. rewrite (E 0%nat : a = b), (IH q) by (intros i; apply (E (S i))). reflexivity.
Qed.
Lemma coef_app_zeroes p n i : coef (p ++ repeat 0 n) i = coef p i.
Proof.
  unfold coef. destruct (Nat.lt_ge_cases i (length p)) as [l|g]; [now apply app_nth1|].
  rewrite app_nth2 by exact g. rewrite (nth_overflow p) by exact g. apply coef_repeat.
Qed.

(** ** Trimming *)
Lemma pop_spec (r : list F) : exists n, r = repeat 0 n ++ pop_zeroes r /\
  (r <> [] -> pop_zeroes r <> [] /\ (length (pop_zeroes r) = 1%nat \/ hd 0 (pop_zeroes r) <> 0)).
Proof.
  induction r as [|x r IH].
  - exists 0%nat. split; [reflexivity|]. intros X. now destruct X.
  - destruct r as [|y r].
    + exists 0%nat. split; [reflexivity|]. intros _. split; [discriminate|left; reflexivity].
    + change (pop_zeroes (x :: y :: r)) with (if feqb x 0 then pop_zeroes (y :: r) else x :: y :: r). destruct (feqb_spec x 0) as [e|n].
      * subst x. destruct IH as [m [E X]]. exists (S m). split; [cbn [repeat app]; now rewrite <- E|]. intros _. apply X. discriminate.
      * exists 0%nat. split; [reflexivity|]. intros _. split; [discriminate|]. right. exact n.
Qed.
Lemma trim_spec p : exists n, p = trim p ++ repeat 0 n /\ (p <> [] -> normal (trim p)).
Proof.
  destruct (pop_spec (rev p)) as [n [E X]]. exists n. unfold trim. split.
  - rewrite <- (rev_involutive p) at 1. rewrite E at 1. rewrite rev_app_distr. f_equal.
    clear. induction n as [|n IH]; [reflexivity|]. cbn [repeat rev]. rewrite IH. clear. induction n as [|n IH]; [reflexivity|]. cbn [repeat app]. f_equal. exact IH.
  - intros Np. assert (Nr : rev p <> []) by (intros Y; apply Np; rewrite <- (rev_involutive p), Y; reflexivity).
    destruct (X Nr) as [A B]. destruct (pop_zeroes (rev p)) as [|x r]; [now destruct A|]. cbn [rev length hd] in *.
    destruct (feqb_spec x 0) as [e|n0].
    + destruct B as [B|B]; [|contradiction]. destruct r; [|discriminate]. subst x. left. reflexivity.
    + right. split; [intros Y; apply app_eq_nil in Y; now destruct Y|]. now rewrite last_last.
Qed.
Lemma trim_same p : same_poly (trim p) p.
Proof. destruct (trim_spec p) as [n [E _]]. intros i. rewrite E at 2. now rewrite coef_app_zeroes. Qed.
Lemma trim_normal p : p <> [] -> normal (trim p).
Proof. destruct (trim_spec p) as [n [_ X]]. exact X. Qed.
Lemma trim_hv p x : hv (trim p) x = hv p x. Proof. apply hv_same, trim_same. Qed.
Lemma trim_len p : (length (trim p) <= length p)%nat.
Proof. destruct (trim_spec p) as [n [E _]]. rewrite E at 2. rewrite app_length. lia. Qed.
Lemma normal_nonempty p : normal p -> p <> [].
Proof. intros [->|[X _]]; [discriminate|exact X]. Qed.
Lemma last_coef p : p <> [] -> last p 0 = coef p (length p - 1).
Proof.
  intros N. destruct (exists_last N) as [l [a ->]]. rewrite last_last, app_length. cbn [length]. unfold coef. rewrite app_nth2 by lia.
  replace (length l + 1 - 1 - length l)%nat with 0%nat by lia. reflexivity.
Qed.
Lemma normal_unique p q : normal p -> normal q -> same_poly p q -> p = q.
Proof.
  intros Np Nq E.
  assert (L : length p = length q).
  { assert (K : forall p q : list F, normal p -> normal q -> same_poly p q -> (length p <= length q)%nat).
    { clear. intros p q Np Nq E. destruct (Nat.lt_ge_cases (length q) (length p)) as [l|g]; [exfalso|exact g].
      destruct Np as [->|[A B]]; [destruct Nq as [->|[C _]]; [cbn in l; lia|destruct q; [now destruct C|cbn in l; lia]]|].
      apply B. rewrite last_coef by exact A. rewrite E. apply coef_out. lia. }
    apply Nat.le_antisymm; apply K; auto. intros i. symmetry. apply E. }
  apply (nth_ext p q 0 0 L). intros i _. apply E.
Qed.

(** ** Sums, products by scalars *)
Lemma zip_coef (f : F -> F -> F) p : forall q i, (i < length p)%nat -> (i < length q)%nat ->
  nth i (map (fun xy => f (fst xy) (snd xy)) (combine p q)) 0 = f (coef p i) (coef q i).
Proof.
  induction p as [|a p IH]; intros [|b q] [|i] L1 L2; cbn in L1, L2; try lia; cbn [combine map nth]; [reflexivity|]. rewrite !coef_cons. apply IH; lia.
Qed.
Lemma merge_coef (f : F -> F -> F) (h : F -> F) p q i : (forall a, f a 0 = a) -> (forall b, f 0 b = h b) ->
  coef (map (fun xy => f (fst xy) (snd xy)) (combine p q) ++ skipn (length q) p ++ (if Nat.ltb (length p) (length q) then map h (skipn (length p) q) else [])) i
  = f (coef p i) (coef q i).
Proof.
  intros F0 F1. unfold coef at 1. set (m := map _ (combine p q)). assert (Lm : length m = Nat.min (length p) (length q)) by (unfold m; now rewrite map_length, combine_length).
  assert (Nx : forall (l : list F) n j, nth j (skipn n l) 0 = nth (n + j) l 0).
  { clear. intros l n. revert l. induction n as [|n IH]; intros [|a l] j; cbn [skipn Nat.add nth]; try reflexivity; [now destruct j|apply IH]. }
  destruct (Nat.lt_ge_cases i (length m)) as [l|g].
  - rewrite app_nth1 by exact l. unfold m. apply zip_coef; lia.
  - rewrite app_nth2 by exact g. destruct (Nat.ltb_spec (length p) (length q)) as [a|a].
    + assert (Sk : skipn (length q) p = []) by (apply skipn_all2; lia). rewrite Sk. cbn [app].
      rewrite (coef_out p) by lia. rewrite F1. unfold coef. replace (length m) with (length p) in * by lia.
      destruct (Nat.lt_ge_cases i (length q)) as [b|b].
      * rewrite (nth_indep _ 0 (h 0)) by (rewrite map_length, skipn_length; lia). rewrite map_nth, Nx. do 2 f_equal. lia.
      * rewrite (nth_overflow q) by exact b. rewrite nth_overflow by (rewrite map_length, skipn_length; lia). rewrite <- F1. symmetry. apply F0.
    + rewrite app_nil_r, Nx. replace (length m) with (length q) in * by lia. replace (length q + (i - length q))%nat with i by lia.
      rewrite (coef_out q) by lia. rewrite F0. reflexivity.
Qed.
Lemma add_coefs p q i : coef (add p q) i = coef p i + coef q i.
Proof.
  unfold add. rewrite (trim_same _ i). rewrite <- (merge_coef fadd (fun x => x) p q i); [rewrite map_id; reflexivity|intros; ring..].
Qed.
Lemma sub_coefs p q i : coef (sub p q) i = coef p i - coef q i.
Proof. unfold sub. rewrite (trim_same _ i). apply (merge_coef fsub fopp p q i); intros; ring. Qed.
Lemma mul_scalar_coefs p s i : coef (mul_scalar p s) i = coef p i * s.
Proof.
  unfold mul_scalar. rewrite (trim_same _ i). unfold coef. revert i. induction p as [|a p IH]; intros [|i]; cbn [map nth]; auto; ring.
Qed.
Lemma neg_coefs p i : coef (neg p) i = fopp (coef p i).
Proof. unfold neg. rewrite mul_scalar_coefs. ring. Qed.
Lemma mul_var_coefs p s i : coef (mul_var p s) i = coef p i * fpow s i.
Proof.
  unfold mul_var. rewrite (trim_same _ i).
  assert (X : forall p r i, coef (mul_var_loop r s p) i = coef p i * (r * fpow s i)).
  { clear. induction p as [|a p IH]; intros r [|i]; cbn [mul_var_loop fpow]; rewrite ?coef_nil; try ring.
    - unfold coef. cbn [nth]. ring.
    - rewrite !coef_cons, IH. ring. }
  rewrite X. ring.
Qed.
(** A polynomial with given coefficients has the corresponding values. *)
Lemma hv_step p x : hv p x = coef p 0 + x * hv (tl p) x.
Proof. destruct p; cbn; [ring|reflexivity]. Qed.
Lemma coef_tl p i : coef (tl p) i = coef p (S i).
Proof. destruct p; [now rewrite !coef_nil|reflexivity]. Qed.
Lemma tl_len p : length (tl p) = (length p - 1)%nat. Proof. destruct p; cbn; lia. Qed.
Lemma hv_lin p q r (a b : F) x : (forall i, coef r i = a * coef p i + b * coef q i) -> hv r x = a * hv p x + b * hv q x.
Proof.
  assert (X : forall n p q r, (length p + length q + length r <= n)%nat -> (forall i, coef r i = a * coef p i + b * coef q i) -> hv r x = a * hv p x + b * hv q x).
  { clear p q r. induction n as [|n IH]; intros p q r L E.
    - destruct p, q, r; cbn in L; try lia. cbn. ring.
    - destruct (Nat.eq_dec (length p + length q + length r) 0) as [z|nz]; [destruct p, q, r; cbn in z; try lia; cbn; ring|].
      rewrite (hv_step r), (hv_step p), (hv_step q), E, (IH (tl p) (tl q) (tl r)); [ring| |intros i; rewrite !coef_tl; apply E].
      rewrite !tl_len. lia. }
  apply (X _ p q r (le_n _)).
Qed.
Lemma hv_mul_var p s x : hv (mul_var p s) x = hv p (s * x).
Proof.
  rewrite (hv_same _ (mul_var_loop 1 s p)) by apply trim_same.
  assert (X : forall p r, hv (mul_var_loop r s p) x = r * hv p (s * x)).
  { clear. induction p as [|a p IH]; intros r; cbn [mul_var_loop hv]; [ring|]. rewrite IH. ring. }
  rewrite X. ring.
Qed.

(** ** Products *)
Fixpoint pmul p q : list F := match p with [] => [] | a :: p' => add (mul_scalar q a) (0 :: pmul p' q) end.
Lemma pmul_coef p : forall q n, coef (pmul p q) n = product_coef p q n.
Proof.
  induction p as [|a p IH]; intros q n; cbn [pmul].
  - rewrite coef_nil. unfold product_coef. symmetry. apply fsum_zero. intros i _. rewrite coef_nil. ring.
  - rewrite add_coefs, mul_scalar_coefs. unfold product_coef. cbn [seq map]. rewrite fsum_cons. rewrite Nat.sub_0_r.
    replace (coef q n * a) with (coef (a :: p) 0 * coef q n) by (unfold coef at 1; cbn [nth]; ring). f_equal.
    destruct n as [|n]; [reflexivity|]. rewrite coef_cons, IH. unfold product_coef. rewrite <- seq_shift, map_map. apply fsum_ext. intros i _. rewrite coef_cons. reflexivity.
Qed.
Lemma hv_pmul p q x : hv (pmul p q) x = hv p x * hv q x.
Proof.
  induction p as [|a p IH]; cbn [pmul hv]; [ring|].
  rewrite (hv_lin q (0 :: pmul p q) _ a 1) by (intros i; rewrite add_coefs, mul_scalar_coefs; ring). cbn [hv]. rewrite IH. ring.
Qed.

(** ** Division *)
Lemma set_len i x p : length (set i x p) = length p.
Proof. revert i. induction p as [|a p IH]; intros [|i]; cbn; auto. Qed.
Lemma set_coef i x p j : (i < length p)%nat -> coef (set i x p) j = if Nat.eqb j i then x else coef p j.
Proof.
  revert i j. induction p as [|a p IH]; intros [|i] j L; cbn in L; try lia; destruct j as [|j]; cbn [set Nat.eqb]; try reflexivity.
  rewrite !coef_cons. apply IH. lia.
Qed.
Lemma sub_row_len qi d : forall i rem, (i + length d <= length rem)%nat -> length (sub_row qi d i rem) = length rem.
Proof.
  induction i as [|i IH]; intros rem L; cbn [sub_row].
  - rewrite app_length, map_length, combine_length, skipn_length. lia.
  - destruct rem as [|a rem]; [reflexivity|]. cbn in *. f_equal. apply IH. lia.
Qed.
Lemma sub_row_coef qi d : forall i rem j, (i + length d <= length rem)%nat ->
  coef (sub_row qi d i rem) j = coef rem j - qi * (if Nat.leb i j then coef d (j - i) else 0).
Proof.
  induction i as [|i IH]; intros rem j L; cbn [sub_row].
  - cbn [Nat.leb]. rewrite Nat.sub_0_r. unfold coef at 1.
    assert (Lm : length (map (fun rd => fst rd - qi * snd rd) (combine rem d)) = length d) by (rewrite map_length, combine_length; cbn in L; lia).
    destruct (Nat.lt_ge_cases j (length d)) as [l|g].
    + rewrite app_nth1 by lia. rewrite (zip_coef (fun a b => a - qi * b)) by (cbn in L; lia). reflexivity.
    + rewrite app_nth2 by lia. rewrite Lm, (coef_out d) by exact g.
      assert (Nx : forall (l : list F) n j, nth j (skipn n l) 0 = nth (n + j) l 0).
      { clear. intros l n. revert l. induction n as [|n IH]; intros [|a l] j; cbn [skipn Nat.add nth]; try reflexivity; [now destruct j|apply IH]. }
      rewrite Nx. replace (length d + (j - length d))%nat with j by lia. unfold coef. ring.
  - destruct rem as [|a rem]; [cbn in L; lia|]. destruct j as [|j]; [cbn [Nat.leb]; unfold coef; cbn [nth]; ring|].
    rewrite !coef_cons, IH by (cbn in L; lia). cbn [Nat.leb Nat.sub]. reflexivity.
Qed.
Lemma sum_point (f : nat -> F) k (c : F) : forall m s, fsum (map (fun i => f i + (if Nat.eqb i k then c else 0)) (seq s m)) =
  fsum (map f (seq s m)) + (if Nat.leb s k && Nat.ltb k (s + m) then c else 0).
Proof.
  induction m as [|m IH]; intros s; cbn [seq map].
  - replace (Nat.leb s k && Nat.ltb k (s + 0)) with false; [cbn; ring|]. symmetry. apply andb_false_iff. destruct (Nat.leb_spec s k); [right; apply Nat.ltb_ge; lia|now left].
  - rewrite !fsum_cons, IH. destruct (Nat.eqb_spec s k) as [e|n].
    + subst k. replace (Nat.leb (S s) s) with false by (symmetry; apply Nat.leb_gt; lia). cbn [andb].
      rewrite Nat.leb_refl. replace (Nat.ltb s (s + S m)) with true by (symmetry; apply Nat.ltb_lt; lia). cbn [andb]. ring.
    + replace (Nat.leb (S s) k && Nat.ltb k (S s + m)) with (Nat.leb s k && Nat.ltb k (s + S m)); [ring|].
      apply eq_true_iff_eq. rewrite !andb_true_iff, !Nat.leb_le, !Nat.ltb_lt. lia.
Qed.
Lemma product_set i x p q n : (i < length p)%nat -> coef p i = 0 ->
  product_coef (set i x p) q n = product_coef p q n + x * (if Nat.leb i n then coef q (n - i) else 0).
Proof.
  intros L Z. unfold product_coef.
  transitivity (fsum (map (fun j => coef p j * coef q (n - j) + (if Nat.eqb j i then x * coef q (n - i) else 0)) (seq 0 (S n)))).
  - apply fsum_ext. intros j _. rewrite set_coef by exact L. destruct (Nat.eqb_spec j i) as [->|_]; [rewrite Z|]; ring.
  - rewrite (sum_point (fun j => coef p j * coef q (n - j)) i). cbn [Nat.leb andb Nat.add].
    replace (Nat.ltb i (S n)) with (Nat.leb i n) by (apply eq_true_iff_eq; rewrite Nat.leb_le, Nat.ltb_lt; lia). destruct (Nat.leb i n); ring.
Qed.
Lemma div_loop_ok (inv b : F) d : d <> [] -> coef d (length d - 1) = b -> b <> 0 -> inv = finv b ->
  forall n rem quo, (n + length d - 1 <= length rem)%nat -> (n <= length quo)%nat ->
  (forall j, (n + length d - 1 <= j)%nat -> coef rem j = 0) -> (forall j, (j < n)%nat -> coef quo j = 0) ->
  let r := div_loop n inv d rem quo in
  length (fst r) = length quo /\ length (snd r) = length rem /\ (forall j, (length d - 1 <= j)%nat -> coef (snd r) j = 0) /\
  (forall j, product_coef (fst r) d j + coef (snd r) j = product_coef quo d j + coef rem j).
Proof.
  intros Nd Hb Nb Hinv. assert (Ld : (1 <= length d)%nat) by (destruct d; [now destruct Nd|cbn; lia]).
  induction n as [|i IH]; intros rem quo L1 L2 Z1 Z2; cbn [div_loop]; cbv zeta.
  - cbn [fst snd]. split; [reflexivity|]. split; [reflexivity|]. split; [|reflexivity]. intros j Hj. apply Z1. lia.
  - set (qi := inv * nth (i + length d - 1) rem 0).
    assert (Lr : (i + length d <= length rem)%nat) by lia.
    specialize (IH (sub_row qi d i rem) (set i qi quo)). cbv zeta in IH.
    rewrite sub_row_len, set_len in IH by exact Lr. destruct IH as [A [B [C D]]]; try lia.
    + intros j Hj. rewrite sub_row_coef by exact Lr. replace (Nat.leb i j) with true by (symmetry; apply Nat.leb_le; lia).
      destruct (Nat.eq_dec j (i + length d - 1)) as [->|n].
      * replace (i + length d - 1 - i)%nat with (length d - 1)%nat by lia. rewrite Hb. unfold qi. rewrite Hinv. unfold coef. field. exact Nb.
      * rewrite Z1 by lia. rewrite (coef_out d) by lia. ring.
    + intros j Hj. rewrite set_coef by lia. destruct (Nat.eqb_spec j i); [lia|]. apply Z2. lia.
    + split; [exact A|]. split; [exact B|]. split; [exact C|]. intros j. rewrite D, product_set, sub_row_coef by (try exact Lr; try lia; apply Z2; lia). ring.
Qed.
Lemma coef_firstn n p i : coef (firstn n p) i = if Nat.ltb i n then coef p i else 0.
Proof.
  revert p i. induction n as [|n IH]; intros [|a p] [|i]; cbn [firstn]; try reflexivity.
  - rewrite coef_nil. now destruct (Nat.ltb _ _).
  - rewrite !coef_cons, IH. reflexivity.
Qed.
Lemma product_same p p' d n : same_poly p p' -> product_coef p d n = product_coef p' d n.
Proof. intros E. apply fsum_ext. intros i _. now rewrite E. Qed.
Lemma div_rem_ok p d : d <> [] -> last d 0 <> 0 ->
  exists q r, div_rem p d = Ok (q, r) /\ (forall n, coef p n = product_coef q d n + coef r n) /\ degree_lt r (length d - 1).
Proof.
  intros Nd Nl. unfold div_rem. assert (Ld : (1 <= length d)%nat) by (destruct d; [now destruct Nd|cbn; lia]).
  destruct (Nat.ltb_spec (length p) (length d)) as [l|g].
  - exists pzero, p. split; [reflexivity|]. split.
    + intros n. rewrite (product_same pzero []) by (intros i; cbn; destruct i as [|[|i]]; reflexivity).
      unfold product_coef. rewrite fsum_zero; [ring|]. intros i _. rewrite coef_nil. ring.
    + intros i Hi. apply coef_out. lia.
  - rewrite last_coef in Nl by exact Nd.
    destruct (exists_last Nd) as [d0 [b E]]. assert (Er : rev d = b :: rev d0) by (rewrite E, rev_app_distr; reflexivity). rewrite Er.
    assert (Hb : coef d (length d - 1) = b). { rewrite <- last_coef by exact Nd. rewrite E. apply last_last. }
    destruct (feqb_spec b 0) as [e|n]; [exfalso; apply Nl; congruence|].
    set (m := (length p - length d + 1)%nat).
    destruct (div_loop_ok (finv b) b d Nd Hb n eq_refl m p (repeat 0 m)) as [A [B [C D]]].
    + unfold m. lia.
    + rewrite repeat_length. lia.
    + intros j Hj. apply coef_out. unfold m in Hj. lia.
    + intros j _. apply coef_repeat.
    + destruct (div_loop m (finv b) d p (repeat 0 m)) as [quo rem] eqn:Eq. cbn [fst snd] in *.
      set (rem1 := firstn (length rem - m) rem).
      set (rem2 := match rem1 with [] => [0] | _ => rem1 end).
      exists (trim (from_coefs quo)), (trim (from_coefs rem2)). split; [reflexivity|].
      assert (R : same_poly (trim (from_coefs rem2)) rem).
      { intros i. unfold from_coefs. rewrite (trim_same _ i), (trim_same _ i). transitivity (coef rem1 i).
        - unfold rem2. destruct rem1 as [|x l]; [|reflexivity]. destruct i as [|[|i]]; reflexivity.
        - unfold rem1. rewrite coef_firstn. destruct (Nat.ltb_spec i (length rem - m)) as [a|a]; [reflexivity|]. symmetry. apply C. rewrite B in a. unfold m in a. lia. }
      split.
      * intros j. rewrite (R j). rewrite (product_same _ quo).
        -- rewrite D. unfold product_coef. rewrite fsum_zero; [ring|]. intros i _. rewrite coef_repeat. ring.
        -- intros i. unfold from_coefs. now rewrite (trim_same _ i), (trim_same _ i).
      * intros i Hi. rewrite (R i). now apply C.
Qed.
Lemma div_rem_panics p d : (length d <= length p)%nat -> (d = [] \/ last d 0 = 0) -> div_rem p d = Panic.
Proof.
  intros L X. unfold div_rem. destruct (Nat.ltb_spec (length p) (length d)); [lia|]. destruct d as [|a d]; [reflexivity|].
  assert (Nd : a :: d <> []) by discriminate. destruct (exists_last Nd) as [d0 [b E]]. rewrite E in *. rewrite rev_app_distr. cbn [rev app].
  destruct X as [X|X]; [exfalso; now apply (app_cons_not_nil d0 [] b)|]. rewrite last_last in X. subst b. now destruct (feqb_spec (0 : F) 0).
Qed.

(** ** Counting roots *)
Fixpoint syn p z : list F := match p with [] => [] | _ :: p' => match p' with [] => [] | _ => hv p' z :: syn p' z end end.
Lemma syn_len p z : length (syn p z) = (length p - 1)%nat.
Proof. induction p as [|a [|b p] IH]; [reflexivity..|]. cbn [syn length] in *. rewrite IH. lia. Qed.
Lemma syn_value p z x : hv p x = hv p z + (x - z) * hv (syn p z) x.
Proof.
  induction p as [|a p IH]; [cbn; ring|]. destruct p as [|b p]; [cbn; ring|].
  change (syn (a :: b :: p) z) with (hv (b :: p) z :: syn (b :: p) z). change (hv (a :: b :: p) x) with (a + x * hv (b :: p) x).
  change (hv (a :: b :: p) z) with (a + z * hv (b :: p) z). change (hv (hv (b :: p) z :: syn (b :: p) z) x) with (hv (b :: p) z + x * hv (syn (b :: p) z) x).
  rewrite IH at 1. ring.
Qed.
Lemma syn_coef p z i : coef p (S i) = coef (syn p z) i - z * coef (syn p z) (S i).
Proof.
  revert i. induction p as [|a p IH]; intros i; [cbn [syn]; rewrite !coef_nil; ring|]. destruct p as [|b p]; [cbn [syn]; rewrite coef_cons, !coef_nil; ring|].
  change (syn (a :: b :: p) z) with (hv (b :: p) z :: syn (b :: p) z). rewrite coef_cons. destruct i as [|i].
  - rewrite coef_cons. unfold coef at 1 2. cbn [nth]. destruct p as [|c p]; [cbn; ring|].
    change (syn (b :: c :: p) z) with (hv (c :: p) z :: syn (c :: p) z). unfold coef. cbn [nth]. change (hv (b :: c :: p) z) with (b + z * hv (c :: p) z). ring.
  - rewrite !coef_cons. apply IH.
Qed.
(** More distinct roots than coefficients: the polynomial is zero. *)
Lemma roots_bound : forall zs p, NoDup zs -> (length p <= length zs)%nat -> (forall z, In z zs -> hv p z = 0) -> forall i, coef p i = 0.
Proof.
  induction zs as [|z zs IH]; intros p N L R i.
  - destruct p; [apply coef_nil|cbn in L; lia].
  - inversion N as [|? ? Nz N']; subst.
    assert (Q : forall j, coef (syn p z) j = 0).
    { apply IH; [exact N'|rewrite syn_len; cbn in L; lia|]. intros y Hy. pose proof (syn_value p z y) as E.
      rewrite (R z) in E by now left. rewrite (R y) in E by now right. symmetry in E.
      destruct (fmul_0 F (y - z) (hv (syn p z) y)) as [X|X]; [rewrite <- E; ring| |exact X]. exfalso. apply Nz. apply (proj1 (fsub_0 F _ _)) in X. now subst. }
    destruct i as [|i]; [|rewrite (syn_coef p z), !Q; ring].
    destruct p as [|a p]; [reflexivity|]. pose proof (R z (or_introl eq_refl)) as E. rewrite (syn_value (a :: p) z z) in E.
    transitivity (hv (a :: p) z); [|now apply R; left]. cbn [hv]. unfold coef. cbn [nth].
    rewrite (hv_zero p); [ring|]. intros j. rewrite <- (coef_cons a). rewrite (syn_coef (a :: p) z), !Q. ring.
Qed.
Lemma poly_unique zs p q : NoDup zs -> (length p <= length zs)%nat -> (length q <= length zs)%nat ->
  (forall z, In z zs -> hv p z = hv q z) -> same_poly p q.
Proof.
  intros N Lp Lq E i. assert (X : forall j, coef (sub p q) j = 0).
  { apply (roots_bound zs); [exact N| |].
    - unfold sub. etransitivity; [apply trim_len|]. rewrite !app_length, map_length, combine_length, skipn_length.
      destruct (Nat.ltb_spec (length p) (length q)); cbn [length]; rewrite ?map_length, ?skipn_length; lia.
    - intros z Hz. rewrite (hv_lin p q _ 1 (fopp 1)) by (intros j; rewrite sub_coefs; ring). rewrite (E z Hz). ring. }
  specialize (X i). rewrite sub_coefs in X. now apply (proj1 (fsub_0 F _ _)).
Qed.
End Proofs.
