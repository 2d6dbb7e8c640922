(** C43, C44: polynomials and transforms (plonk/src/poly_commit/field_polynomial.rs). *)
From Coq Require Import List Arith NArith ZArith Bool Lia Field Ring.
From Verif Require Import Base Field PField Power PolyModel PolySpec PolyProofs PolyLemmas PolyFft.
Import ListNotations.
Local Open Scope F_scope.

Section Props.
Context {F : Field}.
Add Field Fq : (f_th F).
Implicit Types (p q d : list F) (x y z w : F).

(** ** C43 *)
(** [eval] returns the sum of the coefficients times the powers of the point. *)
Theorem C43_eval p x : eval p x = value p x.
Proof. apply eval_value. Qed.
(** Sums, differences, multiples: coefficient by coefficient. *)
Theorem C43_coefficients p q (s : F) i :
  coef (add p q) i = coef p i + coef q i /\ coef (sub p q) i = coef p i - coef q i /\ coef (neg p) i = fopp (coef p i) /\
  coef (mul_scalar p s) i = coef p i * s /\ coef (mul_var p s) i = coef p i * fpow s i.
Proof. auto using add_coefs, sub_coefs, neg_coefs, mul_scalar_coefs, mul_var_coefs. Qed.
(** Evaluation is additive and commutes with multiples and with X -> sX. *)
Theorem C43_homomorphism p q (s x : F) :
  eval (add p q) x = eval p x + eval q x /\ eval (sub p q) x = eval p x - eval q x /\ eval (neg p) x = fopp (eval p x) /\
  eval (mul_scalar p s) x = eval p x * s /\ eval (mul_var p s) x = eval p (s * x).
Proof.
  rewrite !eval_hv. repeat split.
  - rewrite (hv_lin p q _ 1 1) by (intros i; rewrite add_coefs; ring). ring.
  - rewrite (hv_lin p q _ 1 (fopp 1)) by (intros i; rewrite sub_coefs; ring). ring.
  - rewrite (hv_lin p q _ (fopp 1) 0) by (intros i; rewrite neg_coefs; ring). ring.
  - rewrite (hv_lin p q _ s 0) by (intros i; rewrite mul_scalar_coefs; ring). ring.
  - apply hv_mul_var.
Qed.
(** Results carry no trailing zeroes, and then the vector is determined by the polynomial. *)
Theorem C43_normal_forms p q (s : F) : p <> [] -> normal (trim p) /\ normal (sub p q) /\ normal (add p q) /\ normal (mul_scalar p s) /\ normal (mul_var p s).
Proof.
  intros N. assert (M : forall (A : Type) (f : A -> F) l m, l <> [] -> map f l ++ m <> []) by (intros A f [|a l] m H; [now destruct H|discriminate]).
  repeat split.
  - now apply trim_normal.
  - now apply sub_nonempty.
  - apply trim_normal. intros X. apply app_eq_nil in X. destruct X as [A X]. apply app_eq_nil in X. destruct X as [B _]. destruct p as [|a p]; [now apply N|]. destruct q as [|b q]; [discriminate B|discriminate A].
  - apply trim_normal. destruct p; [now destruct N|discriminate].
  - apply trim_normal. destruct p; [now destruct N|discriminate].
Qed.
Theorem C43_normal_form_unique p q : normal p -> normal q -> same_poly p q -> p = q.
Proof. apply normal_unique. Qed.
(** Division with remainder by a divisor whose leading coefficient is not zero:
    p = q d + r coefficient by coefficient and at every point, deg r < deg d. *)
Theorem C43_division p d : d <> [] -> last d 0 <> 0 -> exists q r, div_rem p d = Ok (q, r) /\
  (forall n, coef p n = product_coef q d n + coef r n) /\ (forall x, eval p x = eval q x * eval d x + eval r x) /\ degree_lt r (length d - 1).
Proof.
  intros Nd Nl. destruct (div_rem_ok p d Nd Nl) as [q [r [E [C D]]]]. exists q, r. split; [exact E|]. split; [exact C|]. split; [|exact D].
  intros x. rewrite !eval_hv. rewrite (hv_lin (pmul q d) r p 1 1) by (intros i; rewrite pmul_coef, C; ring). rewrite hv_pmul. ring.
Qed.
(** ... and no other quotient and remainder have these properties. *)
Theorem C43_division_unique p d q r : d <> [] -> last d 0 <> 0 -> (forall n, coef p n = product_coef q d n + coef r n) -> degree_lt r (length d - 1) ->
  exists q' r', div_rem p d = Ok (q', r') /\ same_poly q q' /\ same_poly r r'.
Proof.
  intros Nd Nl E D. destruct (div_rem_ok p d Nd Nl) as [q' [r' [E' [C' D']]]]. exists q', r'. split; [exact E'|].
  apply (div_unique d); auto. intros n. now rewrite <- E, <- C'.
Qed.
(** A divisor with zero leading coefficient (the zero polynomial in particular) panics. *)
Theorem C43_division_by_zero_refuted p d : (length d <= length p)%nat -> (d = [] \/ last d 0 = 0) -> div_rem p d = Panic.
Proof. apply div_rem_panics. Qed.
(** The polynomial with given zeroes. *)
Theorem C43_from_zeroes (zs : list F) x : eval (from_zeroes zs) x = fprod (map (fun z => x - z) zs) /\
  degree (from_zeroes zs) = length zs /\ last (from_zeroes zs) 0 = 1.
Proof. destruct (from_zeroes_ok zs) as [A [_ [B C]]]. rewrite eval_hv. unfold degree. rewrite B. repeat split; auto. cbn. lia. Qed.
Theorem C43_add_coef p c order : p <> [] \/ order <> 0%nat -> exists q, add_coef p c order = Ok q /\
  forall i, coef q i = coef p i + (if Nat.eqb i order then c else 0).
Proof. apply add_coef_ok. Qed.
(** [is_zero] recognises the zero polynomial among trimmed ones. *)
Theorem C43_is_zero p : normal p -> is_zero p = Ok true <-> (forall i, coef p i = 0).
Proof.
  intros N. unfold is_zero, degree. destruct p as [|a [|b p]].
  - exfalso. now apply (normal_nonempty _ N).
  - cbn. split.
    + intros E. apply Ok_inj in E. destruct (feqb_spec a 0) as [->|]; [|discriminate]. intros [|[|i]]; reflexivity.
    + intros E. specialize (E 0%nat). cbn in E. subst a. now destruct (feqb_spec (0 : F) 0).
  - cbn [length Nat.sub Nat.eqb]. split; [discriminate|]. intros E. exfalso. destruct N as [N|[_ N]]; [discriminate|]. apply N.
    rewrite last_coef by discriminate. apply E.
Qed.
Theorem C43_is_zero_empty_refuted : is_zero ([] : list F) = Panic.
Proof. reflexivity. Qed.

(** ** C44 *)
(** For every supported size the transform lists the values at 1, w, w^2, ... *)
Theorem C44_fft_values p w n : supported n -> primitive n w -> p <> [] -> (length p <= n)%nat ->
  fft_with_unity_root p w n = Ok (map (fun i => value p (fpow w i)) (seq 0 n)).
Proof. intros S P. apply fft_unity_ok; [exact S|]. apply primitive_root; [exact P|now apply supported_pos]. Qed.
Theorem C44_coset_fft_values p w n k : supported n -> primitive n w -> p <> [] -> (length p <= n)%nat ->
  coset_fft p w n k = Ok (map (fun i => value p (k * fpow w i)) (seq 0 n)).
Proof.
  intros S P N L. unfold coset_fft.
  assert (Nm : mul_var p k <> []) by (apply normal_nonempty, trim_normal; destruct p; [now destruct N|discriminate]).
  assert (Lm : (length (mul_var p k) <= n)%nat).
  { etransitivity; [apply trim_len|]. assert (X : forall l (r : F), length (mul_var_loop r k l) = length l) by (induction l as [|a l IH]; intros r; cbn; auto). now rewrite X. }
  rewrite C44_fft_values by assumption. f_equal. apply map_ext. intros i. rewrite <- !eval_value, !eval_hv. apply hv_mul_var.
Qed.
(** The inverse transform returns the one polynomial with fewer than n + 1 coefficients
    that takes the given values. *)
Theorem C44_interpolation values w n : supported n -> primitive n w -> (N.of_nat n < 2 ^ 32)%N -> length values = n ->
  exists p, ffti w values n = Ok p /\ (length p <= n)%nat /\ (forall i, (i < n)%nat -> value p (fpow w i) = coef values i) /\
  forall q, (length q <= n)%nat -> (forall i, (i < n)%nat -> value q (fpow w i) = coef values i) -> same_poly p q.
Proof.
  intros S P B L. destruct (interpolation n w values S P B L) as [p [E [Lp V]]]. exists (trim p). unfold ffti.
  assert (R : resize n values = values) by (unfold resize; rewrite <- L, firstn_all, Nat.sub_diag; apply app_nil_r). rewrite R, E. cbn [bind]. split; [reflexivity|].
  assert (Lt : (length (trim p) <= n)%nat) by (rewrite <- Lp; apply trim_len). split; [exact Lt|].
  assert (V' : forall i, (i < n)%nat -> value (trim p) (fpow w i) = coef values i) by (intros i Hi; rewrite <- eval_value, eval_hv, trim_hv; now apply V).
  split; [exact V'|]. intros q Lq Vq. apply (poly_unique (powers w n)).
  - now apply powers_nodup.
  - unfold powers. now rewrite map_length, seq_length.
  - unfold powers. now rewrite map_length, seq_length.
  - intros z Hz. apply in_map_iff in Hz. destruct Hz as [i [<- Hi]]. apply in_seq in Hi. rewrite <- !eval_hv, !eval_value, V', Vq by lia. reflexivity.
Qed.
(** Round trips: coefficients to values and back, on the subgroup and on a coset. *)
Theorem C44_ifft_fft p w n : supported n -> primitive n w -> (N.of_nat n < 2 ^ 32)%N -> p <> [] -> (length p <= n)%nat ->
  bind (fft_with_unity_root p w n) (fun v => ffti w v n) = Ok (trim p).
Proof.
  intros S P B N L. rewrite C44_fft_values by assumption. cbn [bind].
  destruct (C44_interpolation (map (fun i => value p (fpow w i)) (seq 0 n)) w n S P B) as [r [E [Lr [V U]]]]; [now rewrite map_length, seq_length|].
  rewrite E. f_equal. assert (Nr : normal r). { unfold ffti in E. destruct (recursive_ifft _ w) as [c| |] eqn:Ec; [|discriminate..]. cbn [bind] in E. apply Ok_inj in E. subst r. apply trim_normal.
    assert (R : resize n (map (fun i => value p (fpow w i)) (seq 0 n)) = map (fun i => value p (fpow w i)) (seq 0 n)).
    { unfold resize. assert (Lv : length (map (fun i => value p (fpow w i)) (seq 0 n)) = n) by now rewrite map_length, seq_length. rewrite <- Lv at 1. rewrite firstn_all, Lv, Nat.sub_diag. apply app_nil_r. }
    rewrite R in Ec. destruct (recursive_ifft_ok (map (fun i => value p (fpow w i)) (seq 0 n)) w n) as [c' [Ec' [Lc _]]]; auto; [now rewrite map_length, seq_length|].
    rewrite Ec' in Ec. apply Ok_inj in Ec. subst c'. pose proof (supported_pos n S). destruct c; [cbn in Lc; lia|discriminate]. }
  apply normal_unique; [exact Nr|now apply trim_normal|]. intros i. rewrite (trim_same p i). revert i. apply U; [exact L|].
  intros i Hi. unfold coef. now rewrite map_nth_vals.
Qed.
Theorem C44_coset_ifft_fft p w n k k_inv : supported n -> primitive n w -> (N.of_nat n < 2 ^ 32)%N -> p <> [] -> (length p <= n)%nat -> k * k_inv = 1 ->
  bind (coset_fft p w n k) (fun v => coset_ffti w v k_inv n) = Ok (trim p).
Proof.
  intros S P B N L K. unfold coset_fft, coset_ffti.
  assert (Nm : mul_var p k <> []) by (apply normal_nonempty, trim_normal; destruct p; [now destruct N|discriminate]).
  assert (Lm : (length (mul_var p k) <= n)%nat).
  { etransitivity; [apply trim_len|]. assert (X : forall l (r : F), length (mul_var_loop r k l) = length l) by (induction l as [|a l IH]; intros r; cbn; auto). now rewrite X. }
  pose proof (C44_ifft_fft (mul_var p k) w n S P B Nm Lm) as R. rewrite C44_fft_values in R |- * by assumption. cbn [bind] in R |- *. rewrite R. cbn [bind]. f_equal.
  apply normal_unique.
  - apply trim_normal. assert (Nt : trim (mul_var p k) <> []) by (apply normal_nonempty, trim_normal; exact Nm). destruct (trim (mul_var p k)); [now destruct Nt|discriminate].
  - now apply trim_normal.
  - intros i. rewrite mul_var_coefs, !(trim_same _ i), mul_var_coefs.
    transitivity (coef p i * (fpow k i * fpow k_inv i)); [ring|]. rewrite <- fpow_mul_l, K, fpow_1_l. ring.
Qed.
Theorem C44_fft_ifft values w n : supported n -> primitive n w -> (N.of_nat n < 2 ^ 32)%N -> length values = n ->
  bind (ffti w values n) (fun p => fft_with_unity_root p w n) = Ok values.
Proof.
  intros S P B L. destruct (C44_interpolation values w n S P B L) as [p [E [Lp [V _]]]]. rewrite E. cbn [bind].
  assert (Np : p <> []).
  { unfold ffti in E. destruct (interpolation n w values S P B L) as [c [Ec [Lc _]]].
    assert (R : resize n values = values) by (unfold resize; rewrite <- L, firstn_all, Nat.sub_diag; apply app_nil_r).
    rewrite R, Ec in E. cbn [bind] in E. apply Ok_inj in E. subst p. apply normal_nonempty, trim_normal. pose proof (supported_pos n S). destruct c; [cbn in Lc; lia|discriminate]. }
  rewrite C44_fft_values by assumption. f_equal. apply (nth_ext _ _ 0 0); [rewrite map_length, seq_length; now symmetry|].
  intros i Hi. rewrite map_length, seq_length in Hi. rewrite map_nth_vals by exact Hi. now apply V.
Qed.
(** Unsupported sizes panic. *)
Theorem C44_unsupported_panics p w n : ~ supported n -> fft_with_unity_root p w n = Panic.
Proof. intros N. unfold fft_with_unity_root. destruct (fft_size n) eqn:E; [apply fft_size_iff in E; contradiction|reflexivity]. Qed.
(** A polynomial of degree exactly n panics; one of 2n coefficients (n a power of two) is
    not rejected: 2n numbers come back. *)
Theorem C44_degree_n_refuted p w n : supported n -> length p = S n -> fft_with_unity_root p w n = Panic.
Proof.
  intros S L. unfold fft_with_unity_root. rewrite (proj2 (fft_size_iff n) S). cbn [negb]. unfold degree. rewrite L. cbn [Nat.sub]. rewrite Nat.sub_0_r.
  replace (Nat.ltb n (n + 1)) with true by (symmetry; apply Nat.ltb_lt; lia). reflexivity.
Qed.
(** [n as u32] is zero at n = 2^32: the inverse transform panics there. *)
Theorem C44_size_2_32_refuted values w : N.of_nat (length values) = (2 ^ 32)%N -> recursive_ifft values w = Panic.
Proof.
  intros E. unfold recursive_ifft. destruct (negb (fft_size (length values))); [reflexivity|]. rewrite E, N.mod_same by discriminate.
  change (fofN (F := F) 0) with (0 : F). now destruct (feqb_spec (0 : F) 0).
Qed.
(** The root the library computes from a generator is primitive: enough that g has order
    q - 1 up to odd factors other than 3. *)
Theorem C44_root_primitive (g : F) (q : N) n : supported n -> ((q - 1) mod N.of_nat n = 0)%N -> (1 < q)%N -> fpowN g (q - 1) = 1 ->
  fpowN g ((q - 1) / 2) <> 1 -> (n mod 3 = 0%nat -> fpowN g ((q - 1) / 3) <> 1) ->
  exists w, nth_root_of_unity g q n = Ok (Some w) /\ primitive n w.
Proof. apply nth_root_primitive. Qed.
(** No root of the size: the caller gets none. *)
Theorem C44_no_root (g : F) (q : N) n : (0 < n)%nat -> ((q - 1) mod N.of_nat n <> 0)%N -> nth_root_of_unity g q n = Ok None.
Proof. intros P N. unfold nth_root_of_unity. destruct (Nat.eqb_spec n 0); [lia|]. destruct (N.eqb_spec ((q - 1) mod N.of_nat n) 0); [contradiction|reflexivity]. Qed.
Lemma sixth (g : F) a b c : a = (c * 3)%N -> b = (c * 2)%N -> (let y := fpowN g c in feqb (y * y) 1 || feqb (y * y * y) 1 = false) ->
  fpowN g a <> 1 /\ fpowN g b <> 1.
Proof.
  intros -> -> H. cbv zeta in H. apply orb_false_iff in H. destruct H as [H2 H3]. rewrite !fpowN_mul. set (y := fpowN g c) in *. clearbody y.
  rewrite !fpowN_fpow. change (N.to_nat 3) with 3%nat. change (N.to_nat 2) with 2%nat. cbn [fpow].
  destruct (feqb_spec (y * y) 1) as [|n2]; [discriminate|]. destruct (feqb_spec (y * y * y) 1) as [|n3]; [discriminate|].
  split; intros X; [apply n3|apply n2]; rewrite <- X; ring.
Qed.
Lemma feqb_neq (a b : F) : feqb a b = false -> a <> b.
Proof. intros H. destruct (feqb_spec a b); [discriminate|assumption]. Qed.
Lemma fft_from_root (g : F) (q : N) p n : supported n -> ((q - 1) mod N.of_nat n = 0)%N -> (1 < q)%N -> fpowN g (q - 1) = 1 ->
  fpowN g ((q - 1) / 2) <> 1 -> fpowN g ((q - 1) / 3) <> 1 -> p <> [] -> (length p <= n)%nat ->
  exists w, primitive n w /\ fft g q p n = Ok (Some (map (fun i => value p (fpow w i)) (seq 0 n), w)).
Proof.
  intros S D Q G G2 G3 N L. destruct (C44_root_primitive g q n S D Q G G2 (fun _ => G3)) as [w [Ew P]].
  exists w. split; [exact P|]. unfold fft. rewrite (proj2 (fft_size_iff n) S). cbn [negb]. rewrite Ew. cbn [bind].
  rewrite (C44_fft_values p w n S P N L). reflexivity.
Qed.
End Props.

(** In the scalar field of BLS12-381 with the generator 7 (bls12_381.rs 318-320). *)
Definition bls_q : N := Z.to_N (pchar BLS).
Lemma bls_sixth : let y := fpowN (fofZ 7 : BLS) ((bls_q - 1) / 6) in feqb (y * y) 1 || feqb (y * y * y) 1 = false.
Proof. vm_compute. reflexivity. Qed.
Lemma bls_div6 : ((bls_q - 1) / 2 = (bls_q - 1) / 6 * 3)%N /\ ((bls_q - 1) / 3 = (bls_q - 1) / 6 * 2)%N.
Proof. split; vm_compute; reflexivity. Qed.
Lemma bls_q_gt : (1 < bls_q)%N. Proof. reflexivity. Qed.
Lemma bls_order : fpowN (fofZ 7 : BLS) (bls_q - 1) = 1.
Proof. exact (fermat BLS (fofZ 7) (feqb_neq (fofZ 7 : BLS) 0 (eq_refl false <: feqb (fofZ 7 : BLS) 0 = false))). Qed.
Theorem C44_bls_fft (p : list BLS) n : supported n -> ((bls_q - 1) mod N.of_nat n = 0)%N -> p <> [] -> (length p <= n)%nat ->
  exists w, primitive n w /\ fft (fofZ 7) bls_q p n = Ok (Some (map (fun i => value p (fpow w i)) (seq 0 n), w)).
Proof.
  intros S D N L. destruct (sixth (fofZ 7 : BLS) _ _ _ (proj1 bls_div6) (proj2 bls_div6) bls_sixth) as [G2 G3].
  exact (fft_from_root (fofZ 7 : BLS) bls_q p n S D bls_q_gt bls_order G2 G3 N L).
Qed.

(** ** Non-vacuity *)
Section Examples.
Let e (z : Z) : P101 := fofZ z.
Fixpoint leqb (a b : list P101) : bool :=
  match a, b with [], [] => true | x :: a', y :: b' => feqb x y && leqb a' b' | _, _ => false end.
(** (X^3 + 2X + 5) = (X - 3)(X^2 + 3X + 11) + 38 modulo 101. *)
Example C43_division_example : match div_rem [e 5; e 2; e 0; e 1] [e (-3); e 1] with
  | Ok (q, r) => leqb q [e 11; e 3; e 1] && leqb r [e 38] | _ => false end = true.
Proof. vm_compute. reflexivity. Qed.
(** 10 is a primitive 4th root modulo 101, as 10^2 = -1. *)
Example C44_primitive_example : primitive 4 (e 10).
Proof.
  apply (primitive_check 4 (e 10) 2 1); [reflexivity|now left| | |discriminate].
  - match goal with |- ?a = ?b => assert (X : feqb a b = true) by (vm_compute; reflexivity); destruct (feqb_spec a b); [assumption|discriminate] end.
  - intros _. match goal with |- ?a <> ?b => assert (X : feqb a b = false) by (vm_compute; reflexivity); destruct (feqb_spec a b); [discriminate|assumption] end.
Qed.
Example C44_fft_example : match fft_with_unity_root [e 1; e 2; e 3] (e 10) 4 with
  | Ok v => leqb v [e 6; e 18; e 2; e 79] | _ => false end = true.
Proof. vm_compute. reflexivity. Qed.
Example C44_ifft_example : match ffti (e 10) [e 6; e 18; e 2; e 79] 4 with
  | Ok v => leqb v [e 1; e 2; e 3] | _ => false end = true.
Proof. vm_compute. reflexivity. Qed.
(** Asking for 2 values of a polynomial with 4 coefficients returns 4 numbers, the second of
    which is not the value at the root -1. *)
Theorem C44_oversize_refuted : exists p : list P101, match fft_with_unity_root p (e (-1)) 2 with
  | Ok v => Nat.eqb (length v) 4 && negb (feqb (nth 1 v 0) (eval p (e (-1)))) | _ => false end = true.
Proof. exists [e 1; e 2; e 3; e 4]. vm_compute. reflexivity. Qed.
Example C44_bls_example : ((bls_q - 1) mod N.of_nat 12 = 0)%N /\ supported 12.
Proof. split; [vm_compute; reflexivity|]. exists 2%nat. right. reflexivity. Qed.
End Examples.

Print Assumptions C43_eval. Print Assumptions C43_coefficients. Print Assumptions C43_homomorphism. Print Assumptions C43_normal_forms.
Print Assumptions C43_normal_form_unique. Print Assumptions C43_division. Print Assumptions C43_division_unique. Print Assumptions C43_division_by_zero_refuted.
Print Assumptions C43_from_zeroes. Print Assumptions C43_add_coef. Print Assumptions C43_is_zero. Print Assumptions C43_is_zero_empty_refuted.
Print Assumptions C44_fft_values. Print Assumptions C44_coset_fft_values. Print Assumptions C44_interpolation. Print Assumptions C44_ifft_fft.
Print Assumptions C44_coset_ifft_fft. Print Assumptions C44_fft_ifft. Print Assumptions C44_unsupported_panics. Print Assumptions C44_degree_n_refuted.
Print Assumptions C44_size_2_32_refuted. Print Assumptions C44_root_primitive. Print Assumptions C44_no_root. Print Assumptions C44_bls_fft. Print Assumptions C44_oversize_refuted.
