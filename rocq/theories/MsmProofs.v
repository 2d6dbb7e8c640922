(** Correctness of the windowed multi-exponentiation. *)
From Coq Require Import List ZArith Bool Lia ZifyBool ZifyNat Field Ring.
From Verif Require Import Base Field PField MsmModel MsmSpec.
Import ListNotations.
Ltac Zify.zify_post_hook ::= Z.div_mod_to_equations.
Local Open Scope Z_scope.

(** ** Digits *)
Definition lval (ls : list Z) : Z := fold_right (fun l v => l + 2 ^ 64 * v) 0 ls.
Definition limb (l : Z) : Prop := 0 <= l < 2 ^ 64.
Definition dval (w : nat) (ds : list Z) : Z := fold_right (fun d v => d + 2 ^ Z.of_nat w * v) 0 ds.

Lemma lval_range ls : Forall limb ls -> 0 <= lval ls < 2 ^ (64 * Z.of_nat (length ls)).
Proof.
  induction 1 as [|l ls L _ IH]; [cbn; lia|]. cbn [lval fold_right length]. fold (lval ls).
  replace (64 * Z.of_nat (S (length ls))) with (64 + 64 * Z.of_nat (length ls)) by lia. rewrite Z.pow_add_r by lia. unfold limb in L.
  set (P := 2 ^ (64 * Z.of_nat (length ls))) in *. change (2 ^ 64) with 18446744073709551616 in *. nia.
Qed.
Lemma limbs_val n : forall z, 0 <= z < 2 ^ (64 * Z.of_nat n) -> Forall limb (limbs n z) /\ lval (limbs n z) = z /\ length (limbs n z) = n.
Proof.
  induction n as [|n IH]; intros z H; [cbn in *; repeat split; [constructor|lia]|].
  cbn [limbs]. destruct (IH (z / 2 ^ 64)) as [A [B C]].
  { replace (64 * Z.of_nat (S n)) with (64 + 64 * Z.of_nat n) in H by lia. rewrite Z.pow_add_r in H by lia. split; [apply Z.div_pos; lia|]. apply Z.div_lt_upper_bound; lia. }
  split; [constructor; [apply Z.mod_pos_bound; lia|exact A]|]. split; [|cbn [length]; now rewrite C].
  cbn [lval fold_right]. fold (lval (limbs n (z / 2 ^ 64))). rewrite B. pose proof (Z.div_mod z (2 ^ 64)). lia.
Qed.
(** The bits of a limb list. *)
Lemma lval_bit ls : Forall limb ls -> forall (k : nat) m, (k < length ls)%nat -> 0 <= m < 64 -> Z.testbit (lval ls) (64 * Z.of_nat k + m) = Z.testbit (nth k ls 0) m.
Proof.
  induction 1 as [|l ls L _ IH]; intros k m Hk Hm; [cbn in Hk; lia|]. cbn [lval fold_right]. fold (lval ls). unfold limb in L.
  assert (E : l = (l + 2 ^ 64 * lval ls) mod 2 ^ 64) by (rewrite Z.mul_comm, Z.mod_add, Z.mod_small by lia; reflexivity).
  assert (D : lval ls = (l + 2 ^ 64 * lval ls) / 2 ^ 64) by (rewrite Z.mul_comm, Z.div_add, Z.div_small by lia; reflexivity).
  destruct k as [|k]; cbn [nth].
  - rewrite E at 2. rewrite Z.mod_pow2_bits_low by lia. f_equal.
  - rewrite <- IH by (cbn in Hk; lia). rewrite D at 2. rewrite Z.div_pow2_bits by lia. f_equal. lia.
Qed.
Lemma i8_id d : -128 <= d < 128 -> to_i8 d = d.
Proof. unfold to_i8. lia. Qed.

Section Digits.
Context (w : nat) (Hw : (1 <= w <= 7)%nat) (ls : list Z) (Hls : Forall limb ls).
Let R := 2 ^ Z.of_nat w.
Lemma R_pos : 2 <= R <= 128.
Proof. unfold R. split; [change 2 with (2 ^ 1) at 1; apply Z.pow_le_mono_r; lia|change 128 with (2 ^ 7); apply Z.pow_le_mono_r; lia]. Qed.
Lemma R_half : R = 2 * (R / 2).
Proof. unfold R. replace (Z.of_nat w) with (Z.succ (Z.of_nat (w - 1))) by lia. rewrite Z.pow_succ_r by lia. rewrite (Z.mul_comm 2), Z.div_mul by lia. lia. Qed.
(** The window read at an offset. *)
Definition buffer (off : nat) : Z :=
  let k := (off / 64)%nat in let b := (off mod 64)%nat in
  if (b <? 64 - w)%nat || (k =? length ls - 1)%nat then Z.shiftr (nth k ls 0) (Z.of_nat b)
  else Z.lor (Z.shiftr (nth k ls 0) (Z.of_nat b)) (Z.shiftl (nth (1 + k) ls 0) (Z.of_nat (64 - b)) mod 2 ^ 64).
Lemma buffer_ok off : (off / 64 < length ls)%nat -> Z.land (buffer off) (Z.shiftl 1 (Z.of_nat w) - 1) = (lval ls / 2 ^ Z.of_nat off) mod R.
Proof.
  intros H. rewrite Z.shiftl_1_l. replace (2 ^ Z.of_nat w - 1) with (Z.ones (Z.of_nat w)) by (rewrite Z.ones_equiv; lia). rewrite Z.land_ones by lia. fold R.
  apply Z.bits_inj'. intros n Hn. destruct (Z_lt_le_dec n (Z.of_nat w)) as [L|L].
  2:{ unfold R. rewrite !Z.mod_pow2_bits_high by lia. reflexivity. }
  unfold R. rewrite !Z.mod_pow2_bits_low by lia. rewrite Z.div_pow2_bits by lia.
  set (k := (off / 64)%nat) in *. set (b := (off mod 64)%nat). assert (O : off = (64 * k + b)%nat) by (unfold k, b; apply Nat.div_mod_eq). assert (B : (b < 64)%nat) by (unfold b; apply Nat.mod_upper_bound; lia).
  unfold buffer. fold k b. clearbody k b. subst off.
  assert (LK : limb (nth k ls 0)) by (rewrite Forall_forall in Hls; apply Hls, nth_In; lia).
  assert (HI : forall j, 64 <= j -> Z.testbit (nth k ls 0) j = false).
  { intros j Hj. unfold limb in LK. destruct (Z.eq_dec (nth k ls 0) 0) as [->|NZ]; [apply Z.bits_0|]. apply Z.bits_above_log2; [lia|]. apply Z.log2_lt_pow2; [lia|]. eapply Z.lt_le_trans; [apply LK|]. apply Z.pow_le_mono_r; lia. }
  destruct (Z_lt_le_dec (Z.of_nat b + n) 64) as [Q|Q].
  - (* inside the limb *)
    replace (n + Z.of_nat (64 * k + b)) with (64 * Z.of_nat k + (Z.of_nat b + n)) by lia. rewrite lval_bit by (auto; lia).
    destruct ((b <? 64 - w)%nat || (k =? length ls - 1)%nat) eqn:C.
    + rewrite Z.shiftr_spec by lia. f_equal. lia.
    + rewrite Z.lor_spec, Z.shiftr_spec by lia. rewrite Z.mod_pow2_bits_low by lia. rewrite Z.shiftl_spec by lia. rewrite (Z.testbit_neg_r _ (n - _)) by lia. rewrite orb_false_r. f_equal. lia.
  - (* in the next limb, or beyond the last *)
    destruct ((b <? 64 - w)%nat || (k =? length ls - 1)%nat) eqn:C.
    + assert (K : k = (length ls - 1)%nat) by lia. rewrite Z.shiftr_spec by lia. rewrite HI by lia. symmetry.
      pose proof (lval_range ls Hls) as V. destruct (Z.eq_dec (lval ls) 0) as [->|NZ]; [apply Z.bits_0|]. apply Z.bits_above_log2; [lia|]. apply Z.log2_lt_pow2; [lia|]. eapply Z.lt_le_trans; [apply V|]. apply Z.pow_le_mono_r; lia.
    + assert (K : (S k < length ls)%nat) by lia. rewrite Z.lor_spec, Z.shiftr_spec by lia. rewrite HI by lia. cbn [orb]. rewrite Z.mod_pow2_bits_low by lia. rewrite Z.shiftl_spec by lia.
      replace (n + Z.of_nat (64 * k + b)) with (64 * Z.of_nat (1 + k) + (n - Z.of_nat (64 - b))) by lia. rewrite lval_bit by (auto; lia). reflexivity.
Qed.
Lemma radix_step fuel i c : radix_loop (S fuel) w ls i c =
  if (length ls <=? i * w / 64)%nat then [to_i8 c] else
  let coef := c + Z.land (buffer (i * w)) (Z.shiftl 1 (Z.of_nat w) - 1) in
  let c' := Z.shiftr (coef + Z.shiftl 1 (Z.of_nat w) / 2) (Z.of_nat w) in
  to_i8 (coef - Z.shiftl c' (Z.of_nat w)) :: radix_loop fuel w ls (S i) c'.
Proof. reflexivity. Qed.
(** The loop stops within the fuel and its digits, in balanced form, add up to the rest of the scalar. *)
Lemma radix_loop_ok fuel : forall i c, 0 <= c <= 1 -> (64 * length ls <= (i + fuel) * w)%nat ->
  dval w (radix_loop (S fuel) w ls i c) = c + lval ls / 2 ^ Z.of_nat (i * w) /\
  Forall (fun d => - (R / 2) <= d <= R / 2) (radix_loop (S fuel) w ls i c) /\ radix_loop (S fuel) w ls i c <> [].
Proof.
  pose proof R_pos as RP. pose proof R_half as RH. pose proof (lval_range ls Hls) as V.
  assert (ST : forall i, (length ls <= i * w / 64 <-> 64 * length ls <= i * w)%nat) by (clear; intros i; lia).
  assert (BO : forall off, (off / 64 < length ls)%nat -> Z.land (buffer off) (Z.shiftl 1 (Z.of_nat w) - 1) = (lval ls / 2 ^ Z.of_nat off) mod R) by exact (buffer_ok).
  assert (S1 : Z.shiftl 1 (Z.of_nat w) = R) by apply Z.shiftl_1_l.
  assert (S2 : forall z, Z.shiftr z (Z.of_nat w) = z / R) by (intros z; apply Z.shiftr_div_pow2; lia).
  assert (S3 : forall z, Z.shiftl z (Z.of_nat w) = z * R) by (intros z; apply Z.shiftl_mul_pow2; lia).
  assert (PW : forall i, 2 ^ Z.of_nat (S i * w) = 2 ^ Z.of_nat (i * w) * R) by (intros i; unfold R; rewrite <- Z.pow_add_r by lia; f_equal; lia).
  assert (PP : forall i, 0 < 2 ^ Z.of_nat (i * w)) by (intros i; apply Z.pow_pos_nonneg; lia).
  assert (SM : forall i, (64 * length ls <= i * w)%nat -> lval ls / 2 ^ Z.of_nat (i * w) = 0).
  { intros i Hi. apply Z.div_small. split; [apply V|]. eapply Z.lt_le_trans; [apply V|]. apply Z.pow_le_mono_r; lia. }
  assert (DV : forall d ds, dval w (d :: ds) = d + R * dval w ds) by reflexivity.
  remember (R / 2) as h eqn:Eh. clearbody R.
  assert (CC : forall c u, 0 <= c <= 1 -> 0 <= u < R -> let c' := (c + u + h) / R in 0 <= c' <= 1 /\ - h <= c + u - c' * R <= h).
  { clear - RP RH. intros c u Hc Hu. cbv zeta. assert (X : (c + u + h) / R = 0 /\ c + u + h < R \/ (c + u + h) / R = 1 /\ R <= c + u + h).
    { destruct (Z_lt_le_dec (c + u + h) R) as [G|G]; [left; split; [apply Z.div_small; lia|lia]|right; split; [|lia]]. symmetry. apply (Z.div_unique _ R 1 (c + u + h - R)); lia. }
    destruct X as [[-> X]|[-> X]]; lia. }
  induction fuel as [|fuel IH]; intros i c Hc HF; rewrite radix_step; destruct (Nat.leb_spec (length ls) (i * w / 64)) as [L|L].
  1, 3: apply ST in L; rewrite (SM i L), i8_id by (clear - Hc; lia); rewrite DV; cbn [dval fold_right]; split; [clear; lia|split; [constructor; [clear - Hc RP RH; lia|constructor]|discriminate]].
  - exfalso. assert (~ (64 * length ls <= i * w)%nat) by (intros Q; apply ST in Q; clear - Q L; lia). rewrite Nat.add_0_r in HF. contradiction.
  - cbv zeta. rewrite BO by exact L. rewrite !S1, <- Eh, !S2, !S3.
    set (q := lval ls / 2 ^ Z.of_nat (i * w)). assert (U : 0 <= q mod R < R) by (apply Z.mod_pos_bound; clear - RP; lia).
    pose proof (CC c (q mod R) Hc U) as C'. cbv zeta in C'. set (c' := (c + q mod R + h) / R) in *. destruct C' as [C1 C2]. destruct (IH (S i) c' C1) as [D1 [D2 D3]].
    { clear - HF. replace (S i + fuel)%nat with (i + S fuel)%nat by lia. exact HF. }
    rewrite i8_id by (clear - C2 RP RH; lia). split; [|split; [constructor; [exact C2|exact D2]|discriminate]]. rewrite DV, D1, PW, <- Z.div_div by (specialize (PP i); clear - PP RP; lia).
    fold q. pose proof (Z.div_mod q R ltac:(clear - RP; lia)) as DM. clear - DM. lia.
Qed.
End Digits.

Lemma trim_rev_ok w r : exists k, r = repeat 0 k ++ trim_rev r /\ (r <> [] -> trim_rev r <> []) /\ dval w (rev (trim_rev r)) = dval w (rev r).
Proof.
  assert (Z0 : forall l, dval w (l ++ [0]) = dval w l).
  { induction l as [|x l IH]; [cbn; lia|]. cbn [app dval fold_right]. fold (dval w (l ++ [0])) (dval w l). now rewrite IH. }
  induction r as [|d r IH]; [exists O; repeat split; auto|]. destruct IH as [k [A [B C]]]. destruct r as [|d' r]; [exists O; repeat split; discriminate|].
  change (trim_rev (d :: d' :: r)) with (if d =? 0 then trim_rev (d' :: r) else d :: d' :: r). destruct (Z.eqb_spec d 0) as [->|]; [|exists O; repeat split; discriminate].
  exists (S k). split; [cbn [repeat app]; now rewrite <- A|]. split; [intros _; apply B; discriminate|]. rewrite C. change (rev (0 :: d' :: r)) with (rev (d' :: r) ++ [0]). now rewrite Z0.
Qed.
Lemma trim_ok w l (P : Z -> Prop) : l <> [] -> Forall P l -> dval w (trim l) = dval w l /\ Forall P (trim l) /\ trim l <> [].
Proof.
  intros NE H. unfold trim. destruct (trim_rev_ok w (rev l)) as [k [A [B C]]]. rewrite rev_involutive in C. split; [exact C|]. split.
  - apply Forall_rev. apply Forall_rev in H. rewrite A in H. apply Forall_app in H. apply H.
  - intros E. apply (f_equal (@rev Z)) in E. rewrite rev_involutive in E. revert E. apply B. intros E. apply NE. rewrite <- (rev_involutive l), E. reflexivity.
Qed.
Lemma zero_limbs ls : Forall limb ls -> forallb (Z.eqb 0) ls = true -> lval ls = 0.
Proof. induction 1 as [|l ls L _ IH]; [reflexivity|]. cbn [forallb]. intros H. apply andb_prop in H. destruct H as [A B]. cbn [lval fold_right]. fold (lval ls). rewrite IH by exact B. lia. Qed.
(** The digits of a scalar. *)
Lemma digits_ok w ls : (1 <= w <= 7)%nat -> Forall limb ls ->
  exists ds, scalar_to_radix_2_power_w ls w = Ok ds /\ dval w ds = lval ls /\ Forall (fun d => - (2 ^ Z.of_nat w / 2) <= d <= 2 ^ Z.of_nat w / 2) ds /\ ds <> [].
Proof.
  intros Hw H. unfold scalar_to_radix_2_power_w. destruct (Nat.leb_spec w 7); [cbn [negb]|lia]. destruct (forallb (Z.eqb 0) ls) eqn:E.
  - exists [0]. rewrite (zero_limbs ls H E). split; [reflexivity|]. split; [cbn; lia|]. split; [|discriminate]. constructor; [|constructor]. pose proof (Z.div_pos (2 ^ Z.of_nat w) 2 ltac:(apply Z.pow_nonneg; lia) ltac:(lia)). lia.
  - destruct (radix_loop_ok w Hw ls H (64 * length ls) 0 0 ltac:(lia) ltac:(nia)) as [A [B C]]. eexists. split; [reflexivity|].
    destruct (trim_ok w _ _ C B) as [D1 [D2 D3]]. rewrite D1. split; [|split; assumption]. rewrite A. cbn [Nat.mul]. change (2 ^ Z.of_nat 0) with 1. rewrite Z.div_1_r. lia.
Qed.

(** ** Buckets *)
Section Group.
Context {F : PField} {M : Mod F}.
Add Field Fmsm : (f_th F).
Local Open Scope M_scope.
Implicit Types (bs : list M) (des : list (list Z * M)).
Notation zs z a := (smul (fofZ (F := F) z) a).
(** [sum_i (k + i) bs_i] *)
Fixpoint wsum (k : Z) bs : M := match bs with [] => m0 | b :: bs' => zs k b + wsum (k + 1) bs' end.

Lemma zs_add a b (x : M) : zs (a + b) x = zs a x + zs b x.
Proof. rewrite fofZ_add. apply smul_addl. Qed.
Lemma zs_0 (x : M) : zs 0 x = m0. Proof. rewrite fofZ_0. apply smul_0l. Qed.
Lemma zs_1 (x : M) : zs 1 x = x. Proof. rewrite fofZ_1. apply smul_1. Qed.
Lemma zs_opp a (x : M) : zs (- a) x = - zs a x.
Proof. rewrite fofZ_opp. rewrite !mopp_smul, smul_smul. f_equal. ring. Qed.

Lemma update_ok (e : M) f : (forall b, f b = b + e) -> forall bs i k, (i < length bs)%nat ->
  exists bs', update bs i f = Ok bs' /\ length bs' = length bs /\ wsum k bs' = wsum k bs + zs (k + Z.of_nat i) e.
Proof.
  intros Hf. induction bs as [|b bs IH]; intros i k Hi; [cbn in Hi; lia|]. destruct i as [|i]; cbn [update].
  - eexists. split; [reflexivity|]. split; [reflexivity|]. cbn [wsum]. rewrite Hf, smul_addr. replace (k + Z.of_nat 0)%Z with k by lia. module_eq.
  - destruct (IH i (k + 1)%Z ltac:(cbn in Hi; lia)) as [bs' [A [B C]]]. rewrite A. cbn [rmap]. eexists. split; [reflexivity|]. split; [cbn; now rewrite B|]. cbn [wsum]. rewrite C. replace (k + 1 + Z.of_nat i)%Z with (k + Z.of_nat (S i))%Z by lia. module_eq.
Qed.
Lemma update_put e d f bs k : (forall b, f b = b + e) -> (0 < d <= Z.of_nat (length bs)) -> forall n, n = Z.to_nat (d - 1) -> k = 1 ->
  exists bs', update bs n f = Ok bs' /\ length bs' = length bs /\ wsum k bs' = wsum k bs + zs d e.
Proof. intros Hf Hd n -> ->. destruct (update_ok e f Hf bs (Z.to_nat (d - 1)) 1 ltac:(lia)) as [bs' [A [B C]]]. exists bs'. replace (1 + Z.of_nat (Z.to_nat (d - 1)))%Z with d in C by lia. auto. Qed.

Definition dig index (d : list Z) : Z := nth index d 0.
Fixpoint colval index des : M := match des with [] => m0 | de :: des' => zs (dig index (fst de)) (snd de) + colval index des' end.
Definition small n (de : list Z * M) : Prop := Forall (fun d => (- n <= d <= n)%Z) (fst de).
Lemma put_ok index bs de : small (Z.of_nat (length bs)) de -> exists bs', put index bs de = Ok bs' /\ length bs' = length bs /\ wsum 1 bs' = wsum 1 bs + zs (dig index (fst de)) (snd de).
Proof.
  intros H. destruct de as [d e]. unfold put, small, dig in *. cbn [fst snd] in *. destruct (nth_error d index) as [x|] eqn:E.
  - rewrite (nth_error_nth d index 0 E). assert (X : (- Z.of_nat (length bs) <= x <= Z.of_nat (length bs))%Z) by (rewrite Forall_forall in H; apply H; eapply nth_error_In; exact E).
    destruct (Z.ltb_spec 0 x); [apply (update_put e x _ bs 1); auto; lia|]. destruct (Z.ltb_spec x 0).
    + destruct (update_put (- e) (- x) (fun b => b - e) bs 1 ltac:(auto) ltac:(lia) (Z.to_nat (- (x + 1))) ltac:(f_equal; lia) eq_refl) as [bs' [A [B C]]]. exists bs'. split; [exact A|]. split; [exact B|]. rewrite C. f_equal. rewrite zs_opp. rewrite !mopp_smul, !smul_smul. f_equal. ring.
    + replace x with 0%Z by lia. exists bs. split; [reflexivity|]. split; [reflexivity|]. rewrite zs_0. module_eq.
  - exists bs. split; [reflexivity|]. split; [reflexivity|]. apply nth_error_None in E. rewrite nth_overflow by exact E. rewrite zs_0. module_eq.
Qed.
Lemma puts_ok index des : forall bs, Forall (small (Z.of_nat (length bs))) des -> exists bs', puts index des bs = Ok bs' /\ length bs' = length bs /\ wsum 1 bs' = wsum 1 bs + colval index des.
Proof.
  induction des as [|de des IH]; intros bs H; [exists bs; cbn; repeat split; module_eq|]. inversion H as [|? ? H1 H2]; subst.
  destruct (put_ok index bs de H1) as [b1 [A [B C]]]. cbn [puts colval]. rewrite A. cbn [bind]. rewrite <- B in H2. destruct (IH b1 H2) as [b2 [A' [B' C']]]. exists b2. split; [exact A'|]. split; [congruence|]. rewrite C', C. module_eq.
Qed.
Lemma wsum_app bs : forall k cs, wsum k (bs ++ cs) = wsum k bs + wsum (k + Z.of_nat (length bs)) cs.
Proof.
  induction bs as [|b bs IH]; intros k cs; [cbn [app wsum length]; replace (k + Z.of_nat 0)%Z with k by lia; module_eq|]. cbn [app wsum length]. rewrite IH. replace (k + 1 + Z.of_nat (length bs))%Z with (k + Z.of_nat (S (length bs)))%Z by lia. module_eq.
Qed.
Lemma running l : forall a s : M, snd (fold_left (fun p x => let i := fst p + x in (i, snd p + i)) l (a, s)) = s + zs (Z.of_nat (length l)) a + wsum 1 (rev l).
Proof.
  induction l as [|x l IH]; intros a s; [cbn [fold_left snd length rev wsum Z.of_nat]; rewrite zs_0; module_eq|].
  cbn [fold_left fst snd rev length]. cbv zeta. rewrite IH. rewrite wsum_app. cbn [wsum]. rewrite rev_length. replace (Z.of_nat (S (length l))) with (Z.of_nat (length l) + 1)%Z by lia. replace (1 + Z.of_nat (length l))%Z with (Z.of_nat (length l) + 1)%Z by lia.
  rewrite !zs_add, !zs_1, smul_addr. module_eq.
Qed.
Lemma bucket_sum_ok bs : bs <> [] -> bucket_sum bs = Ok (wsum 1 bs).
Proof.
  intros H. unfold bucket_sum. destruct (rev bs) as [|b l] eqn:E; [apply (f_equal (@rev M)) in E; rewrite rev_involutive in E; contradiction|].
  f_equal. rewrite running. assert (E' : bs = rev l ++ [b]) by (rewrite <- (rev_involutive bs), E; reflexivity). rewrite E', wsum_app, rev_length. cbn [wsum]. replace (1 + Z.of_nat (length l))%Z with (Z.of_nat (length l) + 1)%Z by lia. rewrite zs_add, zs_1. module_eq.
Qed.
Lemma wsum_0 n : forall k, wsum k (repeat m0 n) = m0.
Proof. induction n as [|n IH]; intros k; [reflexivity|]. cbn [repeat wsum]. rewrite IH, smul_0r. module_eq. Qed.
Lemma pow_half w : (1 <= w)%nat -> Z.of_nat (2 ^ w / 2) = (2 ^ Z.of_nat w / 2)%Z /\ (1 <= 2 ^ w / 2)%nat.
Proof.
  intros H. rewrite Nat2Z.inj_div, Nat2Z.inj_pow by lia. split; [reflexivity|]. destruct w as [|w]; [lia|]. rewrite Nat.pow_succ_r', (Nat.mul_comm 2), Nat.div_mul by lia. assert (2 ^ w <> 0)%nat by (apply Nat.pow_nonzero; lia). lia.
Qed.
Lemma column_ok w des index : (1 <= w)%nat -> Forall (small (2 ^ Z.of_nat w / 2)) des -> column w des index = Ok (colval index des).
Proof.
  intros Hw H. destruct (pow_half w Hw) as [P1 P2]. unfold column. destruct (puts_ok index des (repeat m0 (2 ^ w / 2))) as [bs [A [B C]]]; [now rewrite repeat_length, P1|].
  rewrite A. cbn [bind]. rewrite bucket_sum_ok by (intros ->; rewrite repeat_length in B; cbn [length] in B; clear - B P2; lia). rewrite C, wsum_0. f_equal. module_eq.
Qed.

(** ** Combining the columns *)
Context (w : nat).
Let W := fofZ (F := F) (2 ^ Z.of_nat w).
Fixpoint hsum (n : nat) (f : nat -> M) : M := match n with O => m0 | S n' => hsum n' f + fpow W n' *: f n' end.
Lemma horner f n : forall t, fold_left (fun total p => W *: total + p) (map f (rev (seq 0 n))) t = fpow W n *: t + hsum n f.
Proof.
  induction n as [|n IH]; intros t; [cbn [seq rev map fold_left hsum fpow]; rewrite smul_1; module_eq|]. rewrite seq_S, rev_app_distr. cbn [rev app map fold_left Nat.add]. rewrite IH. cbn [hsum fpow]. rewrite smul_addr, smul_smul. module_eq.
Qed.
Lemma hsum_ext n f g : (forall i, (i < n)%nat -> f i = g i) -> hsum n f = hsum n g.
Proof. induction n as [|n IH]; intros H; [reflexivity|]. cbn. rewrite IH by (intros; apply H; lia). rewrite H by lia. reflexivity. Qed.
Lemma hsum_lin n f g : hsum n (fun i => f i + g i) = hsum n f + hsum n g.
Proof. induction n as [|n IH]; cbn [hsum]; [module_eq|]. rewrite IH, smul_addr. module_eq. Qed.
Lemma hsum_0 n : hsum n (fun _ => m0) = m0.
Proof. induction n as [|n IH]; cbn [hsum]; [reflexivity|]. rewrite IH, smul_0r. module_eq. Qed.
Lemma hsum_S n f : hsum (S n) f = f O + W *: hsum n (fun i => f (S i)).
Proof. induction n as [|n IH]; [cbn [hsum fpow]; rewrite smul_1, smul_0r; module_eq|]. change (hsum (S (S n)) f) with (hsum (S n) f + fpow W (S n) *: f (S n)). rewrite IH. cbn [hsum fpow]. rewrite smul_addr, smul_smul. module_eq. Qed.
Lemma hsum_digits (e : M) : forall n d, (length d <= n)%nat -> hsum n (fun i => zs (dig i d) e) = zs (dval w d) e.
Proof.
  induction n as [|n IH]; intros d H; [destruct d; [|cbn in H; lia]; cbn; now rewrite zs_0|]. rewrite hsum_S. destruct d as [|x d].
  - rewrite (hsum_ext _ _ (fun _ => m0)) by (intros i _; cbn [dig nth]; apply zs_0). rewrite hsum_0. cbn [dig nth dval fold_right]. rewrite zs_0, smul_0r. module_eq.
  - cbn [dig nth]. rewrite (hsum_ext _ _ (fun i => zs (dig i d) e)) by (intros; reflexivity). rewrite IH by (cbn in H; lia). cbn [dval fold_right]. fold (dval w d). unfold W. rewrite smul_smul, fofZ_add, fofZ_mul, smul_addl. reflexivity.
Qed.
Fixpoint total des : M := match des with [] => m0 | de :: des' => zs (dval w (fst de)) (snd de) + total des' end.
Lemma hsum_cols n des : Forall (fun de => (length (fst de) <= n)%nat) des -> hsum n (fun i => colval i des) = total des.
Proof.
  induction 1 as [|de des H _ IH]; [apply hsum_0|]. cbn [total]. rewrite (hsum_ext _ _ (fun i => zs (dig i (fst de)) (snd de) + colval i des)) by (intros; reflexivity). rewrite hsum_lin, IH, hsum_digits by exact H. reflexivity.
Qed.
End Group.

Section Top.
Context {F : PField} {M : Mod F} (nl : nat) (Hnl : pchar F <= 2 ^ (64 * Z.of_nat nl)).
Add Field Fmsm2 : (f_th F).
Local Open Scope M_scope.
Lemma count_ok : forall (ds : list (list Z)) c0, let c := fold_left (fun c d => if (c <? length d)%nat then length d else c) ds c0 in (c0 <= c)%nat /\ Forall (fun d => (length d <= c)%nat) ds.
Proof.
  induction ds as [|d ds IH]; intros c0; cbn [fold_left]; cbv zeta; [split; [lia|constructor]|]. destruct (IH (if (c0 <? length d)%nat then length d else c0)) as [A B]. cbv zeta in A, B. split; [destruct (Nat.ltb_spec c0 (length d)); lia|]. constructor; [destruct (Nat.ltb_spec c0 (length d)); lia|exact B].
Qed.
Lemma mapM_map {T U} (f : T -> res U) (g : T -> U) l : (forall x, In x l -> f x = Ok (g x)) -> Base.mapM f l = Ok (map g l).
Proof. induction l as [|x l IH]; intros H; [reflexivity|]. cbn. rewrite H by now left. cbn [bind]. rewrite IH by (intros; apply H; now right). reflexivity. Qed.
Lemma total_comb w : forall (ss : list F) ds, Forall2 (fun s d => dval w d = toZ s) ss ds -> forall es : list M, total w (combine ds es) = combination ss es.
Proof.
  induction 1 as [|s d ss ds H _ IH]; intros es; [reflexivity|]. destruct es as [|e es]; [reflexivity|]. cbn [combine total combination fst snd]. rewrite IH, H, fofZ_toZ. reflexivity.
Qed.
(** Up to 799 scalars. *)
Lemma pippenger_ok (ss : list F) (es : list M) : (1 <= length ss < 800)%nat -> pippenger nl ss es = Ok (combination ss es).
Proof.
  intros L. set (w := window (length ss)). assert (Hw : (1 <= w <= 7)%nat) by (unfold w, window; destruct (Nat.ltb_spec (length ss) 500), (Nat.ltb_spec (length ss) 800); lia).
  assert (D : exists ds, Base.mapM (fun s : F => scalar_to_radix_2_power_w (limbs nl (toZ s)) w) ss = Ok ds /\ Forall2 (fun s d => dval w d = toZ s) ss ds /\
    Forall (fun d => Forall (fun x => - (2 ^ Z.of_nat w / 2) <= x <= 2 ^ Z.of_nat w / 2)%Z d /\ d <> []) ds).
  { clear L. clearbody w. induction ss as [|s ss IH]; [exists []; repeat split; constructor|]. destruct IH as [ds [A [B C]]]. pose proof (toZ_range F s) as R.
    destruct (limbs_val nl (toZ s) ltac:(lia)) as [L1 [L2 _]]. destruct (digits_ok w _ Hw L1) as [d [D1 [D2 [D3 D4]]]]. exists (d :: ds). cbn. rewrite D1. cbn. rewrite A. split; [reflexivity|]. split; [constructor; [congruence|exact B]|constructor; auto]. }
  destruct D as [ds [A [B C]]]. 
  assert (PE : pippenger nl ss es = bind (Base.mapM (fun s : F => scalar_to_radix_2_power_w (limbs nl (toZ s)) w) ss) (fun ds =>
    let count := fold_left (fun c d => if (c <? length d)%nat then length d else c) ds O in
    bind (Base.mapM (column w (combine ds es)) (rev (seq 0 count))) (fun cols =>
    match cols with [] => Panic | hi :: cols' => Ok (fold_left (fun total p => fofZ (2 ^ Z.of_nat w) *: total + p) cols' hi) end))).
  { unfold pippenger, w. destruct ss; [cbn in L; lia|reflexivity]. }
  rewrite PE, A. cbn [bind]. cbv zeta.
  destruct (count_ok ds 0) as [_ K]. cbv zeta in K. set (count := fold_left _ ds O) in *.
  rewrite (mapM_map _ (fun i => colval i (combine ds es))).
  2:{ intros i _. apply column_ok; [lia|]. rewrite Forall_forall in C |- *. intros [d e] H. apply in_combine_l in H. apply C, H. }
  cbn [bind]. destruct count as [|n] eqn:EC.
  { exfalso. destruct ds as [|d ds]; [inversion B; subst; discriminate|]. inversion K; subst. inversion C as [|? ? [_ NE] _]; subst. destruct d; [contradiction|cbn in *; lia]. }
  rewrite seq_S, rev_app_distr. cbn [rev app map Nat.add]. f_equal. rewrite horner. rewrite <- (total_comb w ss ds B es). rewrite <- (hsum_cols w (S n)).
  - cbn [hsum]. module_eq.
  - rewrite Forall_forall in K |- *. intros [d e] H. apply in_combine_l in H. apply K, H.
Qed.
(** From 800 scalars on the window assertion fails. *)
Lemma pippenger_panics (ss : list F) (es : list M) : (800 <= length ss)%nat -> pippenger nl ss es = Panic.
Proof.
  intros L. unfold pippenger, window. destruct ss as [|s ss]; [cbn in L; lia|]. destruct (Nat.ltb_spec (length (s :: ss)) 500); [lia|]. destruct (Nat.ltb_spec (length (s :: ss)) 800); [lia|]. reflexivity.
Qed.
End Top.
