(** The transforms compute values at the powers of the root, and invert each other. *)
From Coq Require Import List Arith NArith ZArith Bool Lia Field Ring.
From Verif Require Import Base Field Power PolyModel PolySpec PolyProofs PolyLemmas.
Import ListNotations.
Local Open Scope F_scope.

Section Fft.
Context {F : Field}.
Add Field Fq : (f_th F).
Implicit Types (p q d : list F) (x y z w : F).

(** ** Splitting *)
Lemma list_ind2 {A : Type} (P : list A -> Prop) : P [] -> (forall a, P [a]) -> (forall a b l, P l -> P (a :: b :: l)) -> forall l, P l.
Proof. intros H0 H1 H2. assert (X : forall l, P l /\ forall a, P (a :: l)). { induction l as [|b l [A1 A2]]; [split; auto|]. split; [apply A2|]. intros a. now apply H2. } apply X. Qed.
Lemma split_value p x : hv p x = hv (evens p) (x * x) + x * hv (odds p) (x * x).
Proof. revert p. apply (list_ind2 (fun p => hv p x = hv (evens p) (x * x) + x * hv (odds p) (x * x))); [cbn; ring|intros a; cbn; ring|]. intros a b l IH. cbn [evens odds hv]. rewrite IH. ring. Qed.
Lemma split_len {A : Type} (l : list A) m : length l = (2 * m)%nat -> length (evens l) = m /\ length (odds l) = m.
Proof.
  revert m. induction l as [|a|a b l IH] using list_ind2; intros m E; cbn [length evens odds] in *; [lia|lia|].
  destruct (IH (m - 1)%nat) as [A1 A2]; lia.
Qed.
Lemma butterflies_ok : forall ye yo om w, length ye = length yo ->
  butterflies om w ye yo = (map (fun i => nth i ye 0 + om * fpow w i * nth i yo 0) (seq 0 (length ye)), map (fun i => nth i ye 0 - om * fpow w i * nth i yo 0) (seq 0 (length ye))).
Proof.
  induction ye as [|e ye IH]; intros [|o yo] om w E; try discriminate; [reflexivity|]. cbn [butterflies length seq map]. rewrite IH by (cbn in E; lia). cbn [fst snd].
  rewrite <- seq_shift, !map_map. cbn [nth fpow]. f_equal; f_equal; try ring; apply map_ext; intros i; ring.
Qed.
(** ** Sizes *)
Lemma pow2b_pow k : pow2b (2 ^ k) = true.
Proof. unfold pow2b. rewrite Nat.log2_pow2, Nat.eqb_refl by lia. rewrite andb_true_r. apply negb_true_iff, Nat.eqb_neq, Nat.pow_nonzero. lia. Qed.
Lemma fft_size_iff n : fft_size n = true <-> supported n.
Proof.
  assert (P : forall m, pow2b m = true <-> exists k, m = (2 ^ k)%nat).
  { intros m. split.
    - intros H. apply andb_true_iff in H. destruct H as [_ H]. apply Nat.eqb_eq in H. now exists (Nat.log2 m).
    - intros [k ->]. apply pow2b_pow. }
  unfold fft_size, supported. rewrite orb_true_iff, andb_true_iff, Nat.eqb_eq, !P. split.
  - intros [[k H]|[M [k H]]]; exists k; [now left|right]. rewrite <- H. apply Nat.div_exact; lia.
  - intros [k [H|H]]; [left; now exists k|right]. rewrite H. split; [rewrite Nat.mul_comm; apply Nat.mod_mul; lia|]. exists k. rewrite Nat.mul_comm. apply Nat.div_mul. lia.
Qed.
Lemma rfft_step f coefs w m : length coefs = (2 * m)%nat -> (0 < m)%nat -> fft_size (length coefs) = true ->
  rfft (S f) coefs w = bind (rfft f (evens coefs) (w * w)) (fun ye => bind (rfft f (odds coefs) (w * w)) (fun yo =>
     let r := butterflies 1 w ye yo in Ok (fst r ++ snd r))).
Proof.
  intros L P Sz. cbn [rfft]. rewrite Sz. cbn [negb]. destruct coefs as [|a [|b [|c [|e l]]]]; cbn [length] in L; try lia; reflexivity.
Qed.
Lemma map_nth_vals (f : nat -> F) n i : (i < n)%nat -> nth i (map f (seq 0 n)) 0 = f i.
Proof. intros L. rewrite (nth_indep _ 0 (f 0%nat)) by (rewrite map_length, seq_length; exact L). rewrite map_nth, seq_nth by exact L. reflexivity. Qed.
Lemma rfft_ok : forall k b coefs w f, (b = 1 \/ b = 3)%nat -> length coefs = (b * 2 ^ k)%nat -> (k < f)%nat ->
  (b = 3%nat -> fpow w (3 * 2 ^ k) = 1) -> (0 < k -> fpow w (b * 2 ^ (k - 1)) = fopp 1)%nat ->
  rfft f coefs w = Ok (map (fun i => hv coefs (fpow w i)) (seq 0 (b * 2 ^ k))).
Proof.
  induction k as [|k IH]; intros b coefs w f Hb L Hf H3 H2.
  - destruct f as [|f]; [lia|]. cbn [Nat.pow] in *. rewrite Nat.mul_1_r in *. cbn [rfft].
    assert (Sz : fft_size (length coefs) = true). { rewrite L. apply fft_size_iff. exists 0%nat. cbn. lia. }
    rewrite Sz. cbn [negb]. destruct Hb as [->| ->].
    + destruct coefs as [|a [|? ?]]; try discriminate. cbn. do 2 f_equal. ring.
    + destruct coefs as [|c0 [|c1 [|c2 [|? ?]]]]; try discriminate. cbn [seq map hv fpow Nat.add].
      specialize (H3 eq_refl). cbn [Nat.mul Nat.add fpow] in H3. do 2 f_equal; [ring|]. f_equal; [ring|]. f_equal. ring_simplify. 
      f_equal; try ring.
  - destruct f as [|f]; [lia|]. specialize (H2 ltac:(lia)). replace (S k - 1)%nat with k in H2 by lia.
    assert (Eb : (b * 2 ^ S k = 2 * (b * 2 ^ k))%nat) by (cbn [Nat.pow]; lia).
    assert (Pm : (0 < b * 2 ^ k)%nat) by (apply Nat.mul_pos_pos; [lia|]; apply Nat.neq_0_lt_0, Nat.pow_nonzero; lia).
    assert (Sz : fft_size (length coefs) = true). { rewrite L. apply fft_size_iff. exists (S k). destruct Hb as [->| ->]; [left; lia|now right]. }
    rewrite (rfft_step f coefs w (b * 2 ^ k)) by (try exact Sz; try exact Pm; lia).
    destruct (split_len coefs (b * 2 ^ k)) as [Le Lo]; [lia|].
    assert (W2 : forall j, fpow (w * w) j = fpow w (2 * j)).
    { intros j. rewrite fpow_mul. f_equal. cbn [fpow]. ring. }
    assert (A3 : b = 3%nat -> fpow (w * w) (3 * 2 ^ k) = 1). { intros E3. rewrite W2, <- (H3 E3). f_equal. cbn [Nat.pow]. lia. }
    assert (A2 : (0 < k -> fpow (w * w) (b * 2 ^ (k - 1)) = fopp 1)%nat).
    { intros Pk. rewrite W2, <- H2. f_equal. replace k with (S (k - 1))%nat at 2 by lia. cbn [Nat.pow]. lia. }
    rewrite (IH b (evens coefs) (w * w) f Hb Le ltac:(lia) A3 A2). cbn [bind].
    rewrite (IH b (odds coefs) (w * w) f Hb Lo ltac:(lia) A3 A2). cbn [bind].
    rewrite butterflies_ok by now rewrite !map_length. cbn [fst snd]. rewrite map_length, seq_length.
    set (m := (b * 2 ^ k)%nat) in *. f_equal. rewrite Eb. replace (2 * m)%nat with (m + m)%nat by lia.
    rewrite seq_app, map_app. f_equal.
    + apply map_ext_in. intros i Hi. apply in_seq in Hi. rewrite !map_nth_vals by lia. rewrite (split_value coefs (fpow w i)), W2.
      replace (fpow w (2 * i)) with (fpow w i * fpow w i) by (rewrite <- fpow_add; f_equal; lia). ring.
    + cbn [Nat.add]. rewrite <- (map_map (fun i => i) (fun i => hv coefs (fpow w i)) (seq m m)), map_id.
      replace (seq m m) with (map (fun i => (m + i)%nat) (seq 0 m)).
      * rewrite map_map. apply map_ext_in. intros i Hi. apply in_seq in Hi. rewrite !map_nth_vals by lia. rewrite (split_value coefs (fpow w (m + i))), W2, fpow_add, H2.
        replace (fpow w (2 * i)) with (fpow w i * fpow w i) by (rewrite <- fpow_add; f_equal; lia).
        replace (fopp 1 * fpow w i * (fopp 1 * fpow w i)) with (fpow w i * fpow w i) by ring. ring.
      * clear. rewrite <- (Nat.add_0_r m) at 2. generalize 0%nat at 1 2. intros s. generalize m at 2 4. intros l. revert s. induction l as [|l IHl]; intros s; [reflexivity|]. cbn [seq map]. f_equal. rewrite IHl. f_equal. lia.
Qed.
Lemma pow2_ge k : (k < 2 ^ k)%nat. Proof. apply Nat.pow_gt_lin_r. lia. Qed.
(** Only the powers of the root matter below: [w] of order dividing n, half order -1. *)
Definition fft_root n w : Prop := fpow w n = 1 /\ (Nat.even n = true -> fpow w (n / 2) = fopp 1).
Lemma primitive_root n w : primitive n w -> (0 < n)%nat -> fft_root n w.
Proof.
  intros P Pn. split; [apply P|]. intros Ev. apply Nat.even_spec in Ev. destruct Ev as [c ->]. rewrite (Nat.mul_comm 2 c), Nat.div_mul by lia. apply primitive_half; [exact P|lia].
Qed.
Lemma recursive_fft_ok coefs w : supported (length coefs) -> fft_root (length coefs) w ->
  recursive_fft coefs w = Ok (map (fun i => hv coefs (fpow w i)) (seq 0 (length coefs))).
Proof.
  intros [k Hk] [R1 R2]. unfold recursive_fft.
  assert (X : exists b, (b = 1 \/ b = 3)%nat /\ length coefs = (b * 2 ^ k)%nat) by (destruct Hk; [exists 1%nat|exists 3%nat]; lia).
  destruct X as [b [Hb L]]. pose proof (pow2_ge k) as G. rewrite L in R1, R2.
  assert (H2 : (0 < k -> fpow w (b * 2 ^ (k - 1)) = fopp 1)%nat).
  { intros Pk. assert (E2 : (b * 2 ^ k = 2 * (b * 2 ^ (k - 1)))%nat) by (replace k with (S (k - 1)) at 1 by lia; cbn [Nat.pow]; lia).
    rewrite <- R2; [|rewrite E2, Nat.even_mul; reflexivity]. f_equal. apply (Nat.div_unique _ 2 _ 0); lia. }
  rewrite (rfft_ok k b coefs w); [now rewrite L|exact Hb|exact L|rewrite L; destruct Hb as [->| ->]; lia|intros ->; exact R1|exact H2].
Qed.
Lemma recursive_fft_size coefs w : ~ supported (length coefs) -> recursive_fft coefs w = Panic.
Proof. intros N. unfold recursive_fft. cbn [rfft]. destruct (fft_size (length coefs)) eqn:E; [apply fft_size_iff in E; contradiction|reflexivity]. Qed.
Lemma supported_pos n : supported n -> (0 < n)%nat.
Proof. intros [k [-> | ->]]; pose proof (pow2_ge k); lia. Qed.

Lemma fft_unity_ok p w n : supported n -> fft_root n w -> p <> [] -> (length p <= n)%nat ->
  fft_with_unity_root p w n = Ok (map (fun i => value p (fpow w i)) (seq 0 n)).
Proof.
  intros Sn R N L. unfold fft_with_unity_root. rewrite (proj2 (fft_size_iff n) Sn). cbn [negb]. unfold degree.
  assert (1 <= length p)%nat by (destruct p; [now destruct N|cbn; lia]).
  replace (Nat.ltb (length p - 1) (n + 1)) with true by (symmetry; apply Nat.ltb_lt; lia).
  replace (Nat.ltb n (length p - 1 + 1)) with false by (symmetry; apply Nat.ltb_ge; lia).
  assert (Ln : length (p ++ repeat 0 (n - (length p - 1) - 1)) = n) by (rewrite app_length, repeat_length; lia).
  rewrite recursive_fft_ok by (rewrite Ln; assumption). rewrite Ln. f_equal. apply map_ext. intros i.
  rewrite <- eval_value, eval_hv, hv_app, hv_zeroes. ring.
Qed.

(** ** The inverse *)
Lemma odd_double e : (e = 2 * N.div2 e + if N.odd e then 1 else 0)%N.
Proof. destruct e as [|[p|p|]]; cbn; lia. Qed.
Lemma pow_bits_ok : forall n e (b r : F), pow_bits n e b r = (fpowN b (2 ^ N.of_nat n), r * fpowN b (e mod 2 ^ N.of_nat n)).
Proof.
  induction n as [|n IH]; intros e b r.
  - cbn [pow_bits]. change (2 ^ N.of_nat 0)%N with 1%N. rewrite N.mod_1_r. unfold fpowN. cbn. f_equal. ring.
  - cbn [pow_bits]. rewrite IH. assert (SqN : forall m, fpowN (b * b) m = fpowN b (2 * m)).
    { intros m. rewrite fpowN_mul. reflexivity. }
    rewrite !SqN. replace (2 ^ N.of_nat (S n))%N with (2 * 2 ^ N.of_nat n)%N by (rewrite Nat2N.inj_succ, N.pow_succ_r'; reflexivity). f_equal.
    assert (M : (e mod (2 * 2 ^ N.of_nat n) = 2 * (N.div2 e mod 2 ^ N.of_nat n) + if N.odd e then 1 else 0)%N).
    { pose proof (odd_double e) as E. set (P := (2 ^ N.of_nat n)%N) in *. assert (P <> 0)%N by (apply N.pow_nonzero; lia).
      pose proof (N.div_mod (N.div2 e) P ltac:(assumption)) as DM. pose proof (N.mod_lt (N.div2 e) P ltac:(assumption)) as ML.
      symmetry. apply (N.mod_unique e (2 * P) (N.div2 e / P)); [destruct (N.odd e); lia|]. rewrite E at 1. destruct (N.odd e); nia. }
    rewrite M, fpowN_add. destruct (N.odd e); [change (fpowN b 1) with b|change (fpowN b 0) with (1 : F)]; ring.
Qed.
Fixpoint limbs_value (base : N) (l : list N) : N := match l with [] => 0 | a :: l' => a + base * limbs_value base l' end%N.
Lemma pow_limbs_gen nb base : base = (2 ^ N.of_nat nb)%N -> forall l (b r : F), Forall (fun a => a < base)%N l ->
    snd (fold_left (fun br e => pow_bits nb e (fst br) (snd br)) l (b, r)) = r * fpowN b (limbs_value base l).
Proof.
  intros Eb. induction l as [|a l IH]; intros b r H.
  - cbn. unfold fpowN. ring.
  - pose proof (Forall_inv H) as Ha. pose proof (Forall_inv_tail H) as Hl. cbn beta in Ha. cbn [fold_left fst snd]. rewrite pow_bits_ok. rewrite IH by exact Hl. rewrite <- Eb.
    rewrite N.mod_small by exact Ha. cbn [limbs_value]. rewrite fpowN_add, fpowN_mul. ring.
Qed.
Lemma pow_limbs_ok x l : Forall (fun a => a < 2 ^ 64)%N l -> pow_limbs x l = fpowN x (limbs_value (2 ^ 64) l).
Proof.
  intros H. unfold pow_limbs. rewrite (pow_limbs_gen 64 (2 ^ 64) eq_refl) by exact H. ring.
Qed.
Lemma root_inv_ok w n : (N.of_nat n < 2 ^ 32)%N -> pow_limbs w [N.of_nat (n - 1)] = fpow w (n - 1).
Proof.
  intros L. rewrite pow_limbs_ok by (constructor; [change (2 ^ 64)%N with (2 ^ 32 * 2 ^ 32)%N; lia|constructor]). cbn [limbs_value]. rewrite N.mul_0_r, N.add_0_r, fpowN_fpow, Nat2N.id. reflexivity.
Qed.
Lemma fsum_swap (f : nat -> nat -> F) l m : fsum (map (fun i => fsum (map (fun j => f i j) m)) l) = fsum (map (fun j => fsum (map (fun i => f i j) l)) m).
Proof.
  induction l as [|a l IH]; cbn [map].
  - symmetry. apply fsum_zero. intros j _. reflexivity.
  - rewrite fsum_cons, IH, <- fsum_plus. apply fsum_ext. intros j _. now rewrite fsum_cons.
Qed.
Lemma inverse_root n w i m : primitive n w -> (i < n)%nat -> (m < n)%nat ->
  fpow w m * fpow (fpow w (n - 1)) i = 1 <-> m = i.
Proof.
  intros P Hi Hm. assert (E : fpow w m * fpow (fpow w (n - 1)) i * fpow w i = fpow w m).
  { rewrite <- (fpow_mul F w), <- !fpow_add. replace (m + (n - 1) * i + i)%nat with (m + n * i)%nat by nia. rewrite fpow_add, fpow_mul, (proj1 P), fpow_1_l. ring. }
  split.
  - intros X. rewrite X in E. apply (primitive_inj n w); auto. rewrite <- E. ring.
  - intros ->. assert (W : fpow w i <> 0). { apply fpow_neq_0. intros ->. destruct P as [P _]. destruct n; [lia|]. cbn [fpow] in P. apply (f1_neq_0 F). rewrite <- P. ring. }
    apply (fmul_cancel F (fpow w i)); [exact W|].
    transitivity (fpow w i * fpow (fpow w (n - 1)) i * fpow w i); [ring|]. rewrite E. ring.
Qed.
Lemma inverse_fft_root n w : primitive n w -> (0 < n)%nat -> fft_root n (fpow w (n - 1)).
Proof.
  intros P Pn. split.
  - rewrite <- fpow_mul, Nat.mul_comm, fpow_mul, (proj1 P). apply fpow_1_l.
  - intros Ev. apply Nat.even_spec in Ev. destruct Ev as [c ->]. rewrite (Nat.mul_comm 2 c), Nat.div_mul by lia.
    rewrite <- fpow_mul. replace ((c * 2 - 1) * c)%nat with (c + (2 * c) * (c - 1))%nat by nia. rewrite fpow_add, fpow_mul, (proj1 P), fpow_1_l.
    rewrite (primitive_half c w P) by lia. ring.
Qed.
(** Interpolation formula. *)
Lemma ifft_coef n w p i : primitive n w -> length p = n -> (i < n)%nat ->
  hv (map (fun j => hv p (fpow w j)) (seq 0 n)) (fpow (fpow w (n - 1)) i) = fofN (N.of_nat n) * coef p i.
Proof.
  intros P L Hi. rewrite hv_sum, map_length, seq_length. set (v := fpow w (n - 1)).
  transitivity (fsum (map (fun j => fsum (map (fun m => coef p m * fpow (fpow w m * fpow v i) j) (seq 0 n))) (seq 0 n))).
  - apply fsum_ext. intros j Hj. apply in_seq in Hj. unfold coef at 1. rewrite map_nth_vals by lia. rewrite hv_sum, L.
    transitivity (fpow (fpow v i) j * fsum (map (fun m => coef p m * fpow (fpow w j) m) (seq 0 n))); [ring|]. rewrite <- fsum_scale. apply fsum_ext. intros m _.
    rewrite fpow_mul_l, <- (fpow_mul F w m j), <- (fpow_mul F w j m), (Nat.mul_comm m j). ring.
  - rewrite fsum_swap.
    transitivity (fsum (map (fun m => 0 + (if Nat.eqb m i then fofN (N.of_nat n) * coef p i else 0)) (seq 0 n))).
    + apply fsum_ext. intros m Hm. apply in_seq in Hm. rewrite fsum_scale, geo_root.
      * destruct (feqb_spec (fpow w m * fpow v i) 1) as [e|ne]; destruct (Nat.eqb_spec m i) as [e'|ne'].
        -- subst m. ring.
        -- exfalso. apply ne'. apply (inverse_root n w); auto. lia.
        -- exfalso. apply ne. apply (inverse_root n w); auto. lia.
        -- ring.
      * assert (K : forall (u : F) e, fpow u n = 1 -> fpow (fpow u e) n = 1) by (intros u e Hu; rewrite <- fpow_mul, Nat.mul_comm, fpow_mul, Hu; apply fpow_1_l).
        rewrite fpow_mul_l, (K w) by apply P. rewrite (K v); [ring|]. unfold v. apply K. apply P.
    + rewrite (sum_point (fun _ => 0) i), fsum_zero by reflexivity. cbn [Nat.leb andb Nat.add]. replace (Nat.ltb i n) with true by (symmetry; apply Nat.ltb_lt; lia). ring.
Qed.
Lemma recursive_ifft_ok values w n : length values = n -> supported n -> primitive n w -> (N.of_nat n < 2 ^ 32)%N ->
  exists p, recursive_ifft values w = Ok p /\ length p = n /\
   (forall i, (i < n)%nat -> coef p i = finv (fofN (N.of_nat n)) * hv values (fpow (fpow w (n - 1)) i)).
Proof.
  intros L Sn P B. pose proof (supported_pos n Sn) as Pn. unfold recursive_ifft. rewrite L. rewrite (proj2 (fft_size_iff n) Sn). cbn [negb].
  rewrite root_inv_ok by exact B. rewrite N.mod_small by exact B. destruct (feqb_spec (fofN (F := F) (N.of_nat n)) 0) as [e|ne]; [exfalso; now apply (primitive_size n w)|].
  rewrite recursive_fft_ok; [|now rewrite L|rewrite L; now apply inverse_fft_root]. cbn [bind]. eexists. split; [reflexivity|]. rewrite L, map_map.
  split; [now rewrite map_length, seq_length|]. intros i Hi. unfold coef. now rewrite map_nth_vals.
Qed.
(** Recovering the coefficients from the values, and the values from the coefficients. *)
Lemma ifft_fft p n w : supported n -> primitive n w -> (N.of_nat n < 2 ^ 32)%N -> length p = n ->
  recursive_ifft (map (fun i => hv p (fpow w i)) (seq 0 n)) w = Ok p.
Proof.
  intros Sn P B L. pose proof (supported_pos n Sn) as Pn.
  destruct (recursive_ifft_ok (map (fun i => hv p (fpow w i)) (seq 0 n)) w n) as [r [E [Lr X]]]; auto; [now rewrite map_length, seq_length|].
  rewrite E. f_equal. apply (nth_ext r p 0 0); [lia|]. intros i Hi. rewrite Lr in Hi. change (coef r i = coef p i). rewrite X by exact Hi. rewrite (ifft_coef n w) by auto.
  pose proof (primitive_size n w P Pn). field. assumption.
Qed.
Lemma interpolation n w values : supported n -> primitive n w -> (N.of_nat n < 2 ^ 32)%N -> length values = n ->
  exists p, recursive_ifft values w = Ok p /\ length p = n /\ forall i, (i < n)%nat -> hv p (fpow w i) = coef values i.
Proof.
  intros Sn P B L. pose proof (supported_pos n Sn) as Pn. destruct (recursive_ifft_ok values w n L Sn P B) as [p [E [Lp X]]]. exists p. split; [exact E|]. split; [exact Lp|].
  intros i Hi. set (v := fpow w (n - 1)) in *.
  assert (Pv : primitive n v).
  { destruct (inverse_fft_root n w P Pn) as [A _]. split; [exact A|]. intros d Hd Hv. unfold v in Hv. rewrite <- fpow_mul in Hv.
    apply (proj2 P d Hd). transitivity (fpow w d * fpow w ((n - 1) * d)); [rewrite Hv; ring|]. rewrite <- fpow_add. replace (d + (n - 1) * d)%nat with (n * d)%nat by nia. rewrite fpow_mul, (proj1 P). apply fpow_1_l. }
  assert (Vw : fpow v (n - 1) = w).
  { unfold v. rewrite <- fpow_mul. destruct (Nat.eq_dec n 1) as [->|n1]; [cbn; destruct P as [P1 _]; cbn in P1; rewrite <- P1; ring|].
    replace ((n - 1) * (n - 1))%nat with (1 + n * (n - 2))%nat by nia. rewrite fpow_add, fpow_mul, (proj1 P), fpow_1_l. cbn. ring. }
  pose proof (ifft_coef n v values i Pv L Hi) as C. rewrite Vw in C.
  set (vals := map (fun j => hv values (fpow v j)) (seq 0 n)) in *.
  assert (E2 : hv p (fpow w i) = finv (fofN (N.of_nat n)) * hv vals (fpow w i) + 0 * hv vals (fpow w i)).
  { apply hv_lin. intros j. destruct (Nat.lt_ge_cases j n) as [l|g].
    - rewrite X by exact l. unfold coef, vals. rewrite map_nth_vals by exact l. ring.
    - rewrite (coef_out p), (coef_out vals) by (unfold vals; rewrite ?map_length, ?seq_length; lia). ring. }
  rewrite E2, C. pose proof (primitive_size n w P Pn). field. assumption.
Qed.
(** ** The root of unity *)
Definition digit_ok (b : N) := Forall (fun a : N => a < b)%N.
Lemma u32_digits_ok : forall f e, (e < 2 ^ (32 * N.of_nat f))%N -> limbs_value (2 ^ 32) (u32_digits f e) = e /\ digit_ok (2 ^ 32) (u32_digits f e).
Proof.
  induction f as [|f IH]; intros e He.
  - assert (e = 0)%N by (change (2 ^ (32 * N.of_nat 0))%N with 1%N in He; lia). subst. split; [reflexivity|constructor].
  - cbn [u32_digits]. destruct (N.eqb_spec e 0) as [->|ne]; [split; [reflexivity|constructor]|].
    assert (Hd : (e / 2 ^ 32 < 2 ^ (32 * N.of_nat f))%N).
    { apply N.div_lt_upper_bound; [discriminate|]. rewrite <- N.pow_add_r. replace (32 + 32 * N.of_nat f)%N with (32 * N.of_nat (S f))%N by lia. exact He. }
    destruct (IH _ Hd) as [A B]. split.
    + cbn [limbs_value]. rewrite A. rewrite N.add_comm. symmetry. apply N.div_mod. discriminate.
    + constructor; [apply N.mod_lt; discriminate|exact B].
Qed.
Lemma u64_loop_ok : forall s, digit_ok (2 ^ 32) s ->
  (limbs_value (2 ^ 64) (u64_limbs s) = limbs_value (2 ^ 32) s /\ digit_ok (2 ^ 64) (u64_limbs s)).
Proof.
  unfold u64_limbs.
  assert (X : forall s i, digit_ok (2 ^ 32) s -> Nat.even i = true ->
     limbs_value (2 ^ 64) (u64_loop i 0 s) = limbs_value (2 ^ 32) s /\ digit_ok (2 ^ 64) (u64_loop i 0 s)).
  { induction s as [|a|a b s IH] using list_ind2; intros i D Ev.
    - split; [reflexivity|constructor].
    - pose proof (Forall_inv D) as Ha. cbn beta in Ha. cbn [u64_loop]. rewrite Ev. destruct (N.eqb_spec a 0) as [->|ne]; [split; [reflexivity|constructor]|].
      split; [cbn [limbs_value]; lia|]. constructor; [|constructor]. change (2 ^ 64)%N with (2 ^ 32 * 2 ^ 32)%N. lia.
    - pose proof (Forall_inv D) as Ha. pose proof (Forall_inv (Forall_inv_tail D)) as Hb. pose proof (Forall_inv_tail (Forall_inv_tail D)) as Hs. cbn beta in Ha, Hb.
      cbn [u64_loop]. rewrite Ev. rewrite Nat.even_succ, <- Nat.negb_even, Ev. cbn [negb].
      destruct (IH (S (S i)) Hs Ev) as [A B]. split.
      + cbn [limbs_value]. rewrite A. change (2 ^ 64)%N with (2 ^ 32 * 2 ^ 32)%N. lia.
      + constructor; [|exact B]. change (2 ^ 64)%N with (2 ^ 32 * 2 ^ 32)%N. nia. }
  intros s D. now apply X.
Qed.
Lemma nth_root_value (g : F) (q : N) n : (0 < n)%nat -> ((q - 1) mod N.of_nat n = 0)%N ->
  nth_root_of_unity g q n = Ok (Some (fpowN g ((q - 1) / N.of_nat n))).
Proof.
  intros Pn D. unfold nth_root_of_unity. destruct (Nat.eqb_spec n 0); [lia|]. rewrite D. cbn [N.eqb negb]. set (e := ((q - 1) / N.of_nat n)%N).
  destruct (u32_digits_ok (N.to_nat (N.size e)) e) as [A B].
  { rewrite N2Nat.id. eapply N.lt_le_trans; [apply N.size_gt|]. apply N.pow_le_mono_r; lia. }
  destruct (u64_loop_ok _ B) as [C E]. rewrite pow_limbs_ok by exact E. rewrite C, A. reflexivity.
Qed.
(** [g] of order exactly q - 1, as far as the primes 2 and 3 are concerned. *)
Lemma nth_root_primitive (g : F) (q : N) n : supported n -> ((q - 1) mod N.of_nat n = 0)%N -> (1 < q)%N -> fpowN g (q - 1) = 1 ->
  fpowN g ((q - 1) / 2) <> 1 -> (n mod 3 = 0%nat -> fpowN g ((q - 1) / 3) <> 1) ->
  exists w, nth_root_of_unity g q n = Ok (Some w) /\ primitive n w.
Proof.
  intros Sn D Q G0 G2 G3. pose proof (supported_pos n Sn) as Pn. rewrite nth_root_value by assumption. eexists. split; [reflexivity|].
  set (e := ((q - 1) / N.of_nat n)%N). assert (E : (q - 1 = N.of_nat n * e)%N).
  { pose proof (N.div_mod (q - 1) (N.of_nat n) ltac:(lia)) as DM. rewrite D, N.add_0_r in DM. exact DM. }
  assert (K : forall c m, n = (m * c)%nat -> (0 < c)%nat -> fpow (fpowN g e) m = fpowN g ((q - 1) / N.of_nat c)).
  { intros c m En Pc. rewrite <- (Nat2N.id m), <- fpowN_fpow, <- fpowN_mul. f_equal. rewrite E, En, Nat2N.inj_mul.
    symmetry. replace (N.of_nat m * N.of_nat c * e)%N with (e * N.of_nat m * N.of_nat c)%N by lia. apply N.div_mul. lia. }
  destruct Sn as [k Hk]. assert (X : exists b, (b = 1 \/ b = 3)%nat /\ n = (b * 2 ^ k)%nat) by (destruct Hk; [exists 1%nat|exists 3%nat]; lia). destruct X as [b [Hb En]].
  apply (primitive_check n _ k b En Hb).
  - rewrite (K 1%nat n) by lia. change (N.of_nat 1) with 1%N. now rewrite N.div_1_r.
  - intros Ev. rewrite (K 2%nat (n / 2)%nat); [exact G2| |lia]. apply Nat.even_spec in Ev. destruct Ev as [c ->]. rewrite (Nat.mul_comm 2 c), Nat.div_mul by lia. reflexivity.
  - intros ->. rewrite (K 3%nat (n / 3)%nat); [apply G3| |lia].
    + rewrite En, Nat.mul_comm. apply Nat.mod_mul. lia.
    + rewrite En, (Nat.mul_comm 3), Nat.div_mul by lia. reflexivity.
Qed.
End Fft.
