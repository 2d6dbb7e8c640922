(** Proofs about the native simulation of a foreign field. *)
From Coq Require Import List ZArith Bool Lia ZifyBool ZifyNat Field.
From Verif Require Import Base Field PField TurboModel TurboSpec SimModel SimSpec.
Import ListNotations.
Local Open Scope Z_scope.

(** ** Numerical facts about the two parameter sets *)
Definition st (P : params) : Z := 2 ^ Z.of_nat (BIT_PER_LIMB P).
Lemma step_st P : step P = st P. Proof. reflexivity. Qed.
Lemma shift1 P : shift P 1 = st P.
Proof. unfold shift, st. f_equal. lia. Qed.
Lemma shift2 P : shift P 2 = st P * st P.
Proof. unfold shift, st. rewrite <- Z.pow_add_r by lia. f_equal. lia. Qed.
Lemma pad1 P : pad P 1 = st P * st P * 64.
Proof. unfold pad, st, surfeit. change 64 with (2 ^ 6). rewrite <- !Z.pow_add_r by lia. f_equal. lia. Qed.
Lemma pad2 P : pad P 2 = st P * st P * st P * 128.
Proof. unfold pad, st, surfeit. change 128 with (2 ^ 7). rewrite <- !Z.pow_add_r by lia. f_equal. lia. Qed.
Lemma bound_carry P : 2 ^ Z.of_nat (surfeit + BIT_PER_LIMB P * 2) = 32 * (st P * st P).
Proof. unfold st, surfeit. change 32 with (2 ^ 5). rewrite <- !Z.pow_add_r by lia. f_equal. lia. Qed.
Lemma pow2B P : 2 ^ Z.of_nat (2 * BIT_PER_LIMB P) = st P * st P.
Proof. unfold st. rewrite <- !Z.pow_add_r by lia. f_equal. lia. Qed.

Definition tp (P : params) : Z := 2 ^ Z.of_nat (BIT_IN_TOP_LIMB P).
Lemma width_top P : 2 ^ Z.of_nat (width P 5) = tp P. Proof. reflexivity. Qed.
Lemma width_low P i : (i < 5)%nat -> 2 ^ Z.of_nat (width P i) = st P.
Proof. intros H. unfold width, st. destruct (Nat.eqb_spec i (NUM_OF_LIMBS - 1)) as [E|E]; [cbn in E; lia|reflexivity]. Qed.

Record facts (P : params) : Prop := {
  f_st : 2 ^ 43 <= st P <= 2 ^ 44;
  f_tp : 0 < tp P /\ 32 * tp P <= st P;
  f_rlen : length (modulus_limbs P) = 6%nat;
  f_plen : length (pad_limbs P) = 6%nat;
  f_rl : Forall (fun x => 0 <= x < st P) (modulus_limbs P);
  f_rnum : number (st P) (modulus_limbs P) = modulus P;
  f_pl : forall i, (i < 6)%nat -> 2 ^ Z.of_nat (width P i) <= nth i (pad_limbs P) 0 <= 2 * 2 ^ Z.of_nat (width P i);
  f_pnum : number (st P) (pad_limbs P) = pad_value P;
  f_pmod : pad_value P mod modulus P = 0;
  f_pval : 2 * modulus P <= pad_value P <= 3 * modulus P;
  f_mod : 12 < modulus P;
  f_mod1 : modulus P < st P * st P * st P * st P * st P * tp P;
  f_mod2 : st P * st P * st P * st P * st P * tp P <= 2 * modulus P
}.
Lemma valid_facts P : valid P -> facts P.
Proof.
  intros [-> | ->]; constructor; try reflexivity;
    lazymatch goal with
    | |- forall _, _ => intros i Hi; do 6 (destruct i as [|i]; [vm_compute; split; congruence|]); lia
    | |- Forall _ _ => repeat (constructor; [vm_compute; split; congruence|]); constructor
    | |- _ /\ _ => vm_compute; split; congruence
    | |- _ => vm_compute; congruence
    end.
Qed.
Lemma facts_width P : facts P -> forall i, 0 < 2 ^ Z.of_nat (width P i) <= st P.
Proof.
  intros K i. destruct (f_tp P K) as [T1 T2]. unfold width. destruct (Nat.eqb i (NUM_OF_LIMBS - 1)).
  - fold (tp P). lia.
  - fold (st P). pose proof (f_st P K). lia.
Qed.
Lemma facts_B P : facts P -> (6 <= BIT_PER_LIMB P <= 44)%nat.
Proof.
  intros K. pose proof (f_st P K) as H. unfold st in H. split.
  - destruct (Nat.le_gt_cases 6 (BIT_PER_LIMB P)); [assumption|].
    assert (2 ^ Z.of_nat (BIT_PER_LIMB P) <= 2 ^ 6) by (apply Z.pow_le_mono_r; lia). lia.
  - destruct (Nat.le_gt_cases (BIT_PER_LIMB P) 44); [assumption|].
    assert (2 ^ 45 <= 2 ^ Z.of_nat (BIT_PER_LIMB P)) by (apply Z.pow_le_mono_r; lia). lia.
Qed.

(** ** Numbers *)
Lemma number_app b l l' : number b (l ++ l') = number b l + b ^ Z.of_nat (length l) * number b l'.
Proof.
  induction l as [|x l IH]; cbn [app number length]; [change (b ^ Z.of_nat 0) with 1; ring|]. rewrite IH, Nat2Z.inj_succ, Z.pow_succ_r by lia. ring.
Qed.
Lemma number_nonneg b l : 0 <= b -> Forall (fun x => 0 <= x) l -> 0 <= number b l.
Proof. intros Hb. induction 1; cbn [number]; nia. Qed.
Lemma list6 {A} (l : list A) : length l = 6%nat -> exists a b c d e f, l = [a; b; c; d; e; f].
Proof.
  intros H. do 6 (destruct l as [|? l]; [discriminate|]). destruct l; [|discriminate].
  do 6 eexists. reflexivity.
Qed.
Lemma list11 {A} (l : list A) : length l = 11%nat ->
  exists a b c d e f g h i j k, l = [a; b; c; d; e; f; g; h; i; j; k].
Proof.
  intros H. do 11 (destruct l as [|? l]; [discriminate|]). destruct l; [|discriminate].
  do 11 eexists. reflexivity.
Qed.

(** Convolution over the integers. *)
Definition convZ (a b : list Z) : list Z :=
  map (fun i => fold_left (fun acc l => acc + nth l a 0 * nth (i - l) b 0) (lefts i) 0) (seq 0 NUM_OF_LIMBS_MUL).
Lemma convZ_number s a b : length a = 6%nat -> length b = 6%nat -> number s (convZ a b) = number s a * number s b.
Proof.
  intros Ha Hb. destruct (list6 a Ha) as (a0 & a1 & a2 & a3 & a4 & a5 & ->).
  destruct (list6 b Hb) as (b0 & b1 & b2 & b3 & b4 & b5 & ->). cbn. ring.
Qed.
Lemma lefts_len i : (length (lefts i) <= 6)%nat.
Proof. unfold lefts. rewrite seq_length. unfold NUM_OF_LIMBS. lia. Qed.
Lemma fold_bound (f : nat -> Z) M ls : forall acc, 0 <= M -> (forall l, 0 <= f l <= M) -> 0 <= acc ->
  0 <= fold_left (fun a l => a + f l) ls acc <= acc + Z.of_nat (length ls) * M.
Proof.
  induction ls as [|l ls IH]; intros acc HM Hf Ha; cbn [fold_left length]; [lia|].
  destruct (IH (acc + f l) HM Hf) as [H1 H2]; [destruct (Hf l); lia|]. destruct (Hf l). nia.
Qed.
Lemma convZ_bound a b X Y : 0 <= X -> 0 <= Y ->
  (forall i, 0 <= nth i a 0 <= X) -> (forall i, 0 <= nth i b 0 <= Y) ->
  Forall (fun x => 0 <= x <= 6 * (X * Y)) (convZ a b).
Proof.
  intros HX HY Ha Hb. unfold convZ. apply Forall_forall. intros x Hx. apply in_map_iff in Hx.
  destruct Hx as [i [<- _]].
  assert (HM : 0 <= X * Y) by nia.
  destruct (fold_bound (fun l => nth l a 0 * nth (i - l) b 0) (X * Y) (lefts i) 0 HM) as [H1 H2].
  - intros l. destruct (Ha l), (Hb (i - l)%nat). nia.
  - lia.
  - pose proof (lefts_len i). split; [exact H1|]. nia.
Qed.
Lemma Forall_nth_Z (Q : Z -> Prop) l : Q 0 -> Forall Q l -> forall i, Q (nth i l 0).
Proof. intros H0 H. induction H as [|x l Hx _ IH]; intros [|i]; cbn [nth]; auto. Qed.

Lemma Forall_nth_le M l : 0 <= M -> Forall (fun x => 0 <= x <= M) l -> forall i, 0 <= nth i l 0 <= M.
Proof. intros HM H i. apply (Forall_nth_Z (fun x => 0 <= x <= M)); [lia|exact H]. Qed.

Section F.
Context (F : PField) (Hp : 2 ^ 254 <= pchar F).
Add Field Fsim : (f_th F).
Local Open Scope F_scope.

Lemma conv_F (a b : list F) : convolve F a b = map fofZ (convZ (map toZ a) (map toZ b)).
Proof.
  unfold convolve, convZ. rewrite map_map. apply map_ext. intros i.
  assert (G : forall ls acc, fold_left (fun acc l => acc + nth l a 0 * nth (i - l) b 0) ls (fofZ acc) =
    fofZ (fold_left (fun acc l => (acc + nth l (map toZ a) 0%Z * nth (i - l) (map toZ b) 0%Z)%Z) ls acc)).
  { induction ls as [|l ls IH]; intros acc; cbn [fold_left]; [reflexivity|]. rewrite <- IH. f_equal.
    rewrite fofZ_add, fofZ_mul. rewrite <- (toZ_0 F), !map_nth, !fofZ_toZ. reflexivity. }
  rewrite <- G. reflexivity.
Qed.
Lemma toZ_map (l : list Z) : Forall (fun x => 0 <= x < pchar F)%Z l -> map toZ (map (fofZ (F := F)) l) = l.
Proof.
  intros H. induction H as [|x l Hx _ IH]; cbn [map]; [reflexivity|]. now rewrite IH, toZ_small.
Qed.
Lemma conv_toZ (a b : list F) : Forall (fun x => 0 <= x < pchar F)%Z (convZ (map toZ a) (map toZ b)) ->
  map toZ (convolve F a b) = convZ (map toZ a) (map toZ b).
Proof. intros H. rewrite conv_F. now apply toZ_map. Qed.

Lemma recompose_number P l : recompose F P l = number (st P) (map toZ l).
Proof. induction l as [|x l IH]; cbn [recompose fold_right map number]; [reflexivity|]. fold (recompose F P l). rewrite IH. unfold step, st. ring. Qed.

(** Digits. *)
Lemma digits_toZ P : facts P -> forall n x, (0 <= x)%Z ->
  length (digits F P n x) = n /\
  Forall (fun z => 0 <= z < st P)%Z (map toZ (digits F P n x)) /\
  number (st P) (map toZ (digits F P n x)) = (x mod st P ^ Z.of_nat n)%Z.
Proof.
  intros K. pose proof (f_st P K) as Hs.
  induction n as [|n IH]; intros x Hx; cbn [digits map number length].
  - rewrite Z.mod_1_r. repeat split. constructor.
  - change (step P) with (st P) in *. destruct (IH (x / st P)%Z) as [L [B N]]; [apply Z.div_pos; lia|].
    assert (Hm : (0 <= x mod st P < st P)%Z) by (apply Z.mod_pos_bound; lia).
    rewrite L. split; [reflexivity|]. rewrite toZ_small by lia. split; [constructor; [exact Hm|exact B]|].
    rewrite N, Nat2Z.inj_succ, Z.pow_succ_r by lia.
    rewrite Z.rem_mul_r by (try apply Z.pow_pos_nonneg; lia). ring.
Qed.
Lemma number_bound s l : (0 < s)%Z -> Forall (fun z => 0 <= z < s)%Z l -> (0 <= number s l < s ^ Z.of_nat (length l))%Z.
Proof.
  intros Hs. induction 1 as [|x l Hx _ IH]; cbn [number length]; [cbn; lia|].
  rewrite Nat2Z.inj_succ, Z.pow_succ_r by lia. nia.
Qed.

(** A number below [s^5 t] has its sixth digit below [t]. *)
Lemma top_digit P l : facts P -> length l = 6%nat -> Forall (fun z => 0 <= z < st P)%Z l ->
  forall t, (0 < t)%Z -> (number (st P) l < st P * st P * st P * st P * st P * t)%Z -> (nth 5 l 0 < t)%Z.
Proof.
  intros K Hl HB t Ht H. destruct (list6 l Hl) as (a & b & c & d & e & f & ->). cbn [nth number] in *.
  pose proof (f_st P K). repeat (match goal with H : Forall _ (_ :: _) |- _ => inversion H; clear H; subst end).
  set (s := st P) in *. destruct (Z_lt_le_dec f t) as [|G]; [assumption|exfalso].
  assert (E : (a + s * (b + s * (c + s * (d + s * (e + s * (f + s * 0))))) >= s * s * s * s * s * t)%Z).
  { assert (s * s * s * s * s * t <= s * s * s * s * s * f)%Z by (apply Z.mul_le_mono_nonneg_l; [repeat apply Z.mul_nonneg_nonneg; lia|lia]).
    assert (0 <= s * (b + s * (c + s * (d + s * e))))%Z.
    { repeat (apply Z.mul_nonneg_nonneg; [lia|]; try apply Z.add_nonneg_nonneg; try lia). }
    replace (a + s * (b + s * (c + s * (d + s * (e + s * (f + s * 0))))))%Z
      with (a + s * (b + s * (c + s * (d + s * e))) + s * s * s * s * s * f)%Z by ring. lia. }
  lia.
Qed.

Lemma from_ok P x : facts P -> (0 <= x < st P * st P * st P * st P * st P * tp P)%Z ->
  limbs_ok P Strict (map toZ (limbs (sim_from F P x))) /\
  number (st P) (map toZ (limbs (sim_from F P x))) = x.
Proof.
  intros K Hx. destruct (digits_toZ P K 6 x (proj1 Hx)) as [L [B N]].
  pose proof (f_st P K) as Hs. destruct (f_tp P K) as [T1 T2].
  assert (N' : number (st P) (map toZ (digits F P 6 x)) = x).
  { rewrite N. apply Z.mod_small. split; [lia|]. change (Z.of_nat 6) with 6%Z.
    replace (st P ^ 6)%Z with (st P * st P * st P * st P * st P * st P)%Z by ring.
    assert (st P * st P * st P * st P * st P * tp P <= st P * st P * st P * st P * st P * st P)%Z
      by (apply Z.mul_le_mono_nonneg_l; [repeat apply Z.mul_nonneg_nonneg; lia|lia]). lia. }
  cbn [limbs sim_from]. unfold NUM_OF_LIMBS. split; [|exact N'].
  split; [now rewrite map_length|]. split; [|exact I].
  intros i Hi. cbn [slack additions]. change (Z.max 1 0) with 1%Z. rewrite Z.mul_1_l.
  pose proof (Forall_nth_Z _ _ (conj (Z.le_refl 0) (ltac:(lia) : (0 < st P)%Z)) B i) as Hb. cbn beta in Hb.
  destruct (Nat.eq_dec i 5) as [->|Ne].
  - rewrite width_top. split; [apply Hb|]. apply (top_digit P _ K); [rewrite map_length; exact L|exact B|exact T1|rewrite N'; lia].
  - rewrite width_low by lia. exact Hb.
Qed.

Theorem from_represents P x : facts P -> (0 <= x < modulus P)%Z -> represents P (sim_from F P x) x.
Proof.
  intros K Hx. pose proof (f_mod1 P K). destruct (from_ok P x K) as [H1 H2]; [lia|].
  repeat split; try apply H1; try assumption; cbn [sim_from sval red additions]; lia.
Qed.
Theorem round_trip P x : facts P -> (0 <= x)%Z ->
  sim_into P (sim_from F P x) = if (x <? st P ^ 6)%Z then Ok x else Panic.
Proof.
  intros K Hx. destruct (digits_toZ P K 6 x Hx) as [_ [_ N]]. pose proof (f_st P K) as Hs.
  assert (Hpos : (0 < st P ^ 6)%Z) by (apply Z.pow_pos_nonneg; lia).
  unfold sim_into. cbn [sim_from limbs sval]. rewrite recompose_number. unfold NUM_OF_LIMBS. rewrite N.
  change (Z.of_nat 6) with 6%Z. destruct (Z.ltb_spec x (st P ^ 6)) as [H|H].
  - rewrite Z.mod_small by lia. now rewrite Z.eqb_refl.
  - destruct (Z.eqb_spec (x mod st P ^ 6) x) as [E|E]; [|reflexivity].
    exfalso. pose proof (Z.mod_pos_bound x (st P ^ 6) Hpos). lia.
Qed.
Theorem into_represents P (a : sim F) x : represents P a x -> sim_into P a = Ok x.
Proof.
  intros (_ & H2 & H3 & _). unfold sim_into. rewrite recompose_number. unfold st in *. rewrite H2, H3, Z.eqb_refl. reflexivity.
Qed.
Theorem minto_represents P (m : simul F) x : mrepresents P m x -> simul_into P m = Ok x.
Proof.
  intros (_ & H2 & H3 & _). unfold simul_into. rewrite recompose_number. unfold st in *. rewrite H2, H3, Z.eqb_refl. reflexivity.
Qed.
Theorem is_zero_represents P (a : sim F) x : represents P a x -> is_zero P a = Ok (x mod modulus P =? 0)%Z.
Proof. intros H. unfold is_zero. now rewrite (into_represents P a x H). Qed.

(** Subtraction of limbs. *)
Lemma nth_map_seq {A} (f : nat -> A) n i d : (i < n)%nat -> nth i (map f (seq 0 n)) d = f i.
Proof.
  intros H. rewrite (nth_indep _ d (f 0%nat)) by (rewrite map_length, seq_length; exact H).
  rewrite map_nth, seq_nth by exact H. reflexivity.
Qed.
Lemma nth_toZ (l : list F) i : nth i (map toZ l) 0%Z = toZ (nth i l 0).
Proof. rewrite <- (toZ_0 F). apply map_nth. Qed.

Lemma number6 s (l : list Z) : length l = 6%nat ->
  number s l = (nth 0 l 0 + s * (nth 1 l 0 + s * (nth 2 l 0 + s * (nth 3 l 0 + s * (nth 4 l 0 + s * nth 5 l 0)))))%Z.
Proof. intros H. destruct (list6 l H) as (a & b & c & d & e & g & ->). cbn [nth number]. ring. Qed.
Lemma slack_pos r : (1 <= slack r)%Z. Proof. unfold slack. lia. Qed.
Lemma additions_pos P r l : limbs_ok P r l -> (0 <= additions r)%Z.
Proof. intros (_ & _ & H). destruct r; cbn in *; lia. Qed.
Definition CAP : Z := 2 ^ 64.

(** The limbs of a difference, whatever list they are computed in. *)
Lemma sub_limbs P ra rb (a b c : list Z) : facts P ->
  limbs_ok P ra a -> limbs_ok P rb b -> match rb with Others _ => False | _ => True end ->
  (additions ra <= CAP)%Z -> length c = 6%nat ->
  (forall i, (i < 6)%nat -> toZ (fofZ (F := F) (nth i a 0 + nth i (pad_limbs P) 0 - nth i b 0)) = nth i c 0)%Z ->
  limbs_ok P (Others (additions ra + 3)) c /\
  number (st P) c = (number (st P) a + pad_value P - number (st P) b)%Z.
Proof.
  intros K Oa (Lb & Hb & Rb) Hrb HC Lc Hc. pose proof (additions_pos _ _ _ Oa) as Hpos. destruct Oa as (La & Ha & Ra).
  assert (S1 : slack rb = 1%Z) by (destruct rb; [reflexivity|reflexivity|contradiction]).
  assert (Hsl : (slack ra + 2 <= additions ra + 3)%Z) by (unfold slack; lia).
  assert (E : forall i, (i < 6)%nat -> (nth i c 0 = nth i a 0 + nth i (pad_limbs P) 0 - nth i b 0 /\
     0 <= nth i c 0 < (additions ra + 3) * 2 ^ Z.of_nat (width P i))%Z).
  { intros i Hi. specialize (Hc i Hi). pose proof (f_pl P K i Hi) as HP. specialize (Ha i Hi). specialize (Hb i Hi).
    rewrite S1 in Hb. pose proof (facts_width P K i) as HW. pose proof (f_st P K) as Hs. unfold CAP in HC.
    set (W := (2 ^ Z.of_nat (width P i))%Z) in *.
    assert (HR : (0 <= nth i a 0 + nth i (pad_limbs P) 0 - nth i b 0 < (additions ra + 3) * W)%Z) by nia.
    assert ((additions ra + 3) * W <= (2 ^ 64 + 3) * 2 ^ 44)%Z by (apply Z.mul_le_mono_nonneg; lia).
    rewrite toZ_small in Hc by lia. rewrite <- Hc. split; [reflexivity|exact HR]. }
  split.
  - split; [exact Lc|]. split; [|lia]. intros i Hi. unfold slack. cbn [additions].
    replace (Z.max 1 (additions ra + 3)) with (additions ra + 3)%Z by lia. apply E, Hi.
  - rewrite <- (f_pnum P K), !number6 by (try assumption; apply (f_plen P K)).
    rewrite !(fun i H => proj1 (E i H)) by lia. ring.
Qed.
Theorem sub_represents P (a b : sim F) x y : facts P -> represents P a x -> represents P b y ->
  match red b with Others _ => False | _ => True end -> (additions (red a) <= CAP)%Z ->
  exists c, sim_sub P a b = Ok c /\ represents P c (x + pad_value P - y) /\ red c = Others (additions (red a) + 3).
Proof.
  intros K (Oa & Na & Va & Ba) (Ob & Nb & Vb & Bb) Hr HC.
  destruct (f_pval P K) as [V1 V2]. pose proof (f_mod P K) as V0.
  assert (By : (y < 2 * modulus P)%Z) by (destruct (red b); cbn [additions] in Bb; [nia|nia|contradiction]).
  set (c := mkSim (map (fun i => nth i (limbs a) 0 + fofZ (nth i (pad_limbs P) 0%Z) - nth i (limbs b) 0) (seq 0 NUM_OF_LIMBS))
                  (sval a + pad_value P - sval b) (Others (additions (red a) + 3))).
  exists c. split; [|split; [|reflexivity]].
  - unfold sim_sub. destruct (red b); [| |contradiction];
      (destruct (Z.ltb_spec (sval a + pad_value P) (sval b)); [lia|reflexivity]).
  - destruct (sub_limbs P (red a) (red b) _ _ (map toZ (limbs c)) K Oa Ob Hr HC) as [H1 H2].
    + cbn [c limbs]. rewrite !map_length, seq_length. reflexivity.
    + intros i Hi. rewrite !nth_toZ. cbn [c limbs]. rewrite nth_map_seq by exact Hi.
      rewrite fofZ_sub, fofZ_add, !fofZ_toZ. reflexivity.
    + split; [exact H1|]. unfold st in H2. rewrite H2, Na, Nb. cbn [c sval red additions].
      split; [reflexivity|]. split; [lia|]. split; [lia|]. nia.
Qed.

(** Products. *)
Lemma limbs_bound P r l : facts P -> limbs_ok P r l -> forall i, (0 <= nth i l 0 <= slack r * st P)%Z.
Proof.
  intros K (L & H & _) i. pose proof (slack_pos r). pose proof (f_st P K).
  destruct (Nat.lt_ge_cases i 6) as [Hi|Hi].
  - specialize (H i Hi). pose proof (facts_width P K i). nia.
  - rewrite nth_overflow by lia. nia.
Qed.
Lemma slack_le r : (0 <= additions r)%Z -> (slack r <= additions r + 1)%Z.
Proof. unfold slack. lia. Qed.
Lemma mul_limbs P ra rb (a b : list Z) : facts P -> limbs_ok P ra a -> limbs_ok P rb b ->
  mlimbs_ok P ((additions ra + 1) * (additions rb + 1)) (convZ a b) /\
  number (st P) (convZ a b) = (number (st P) a * number (st P) b)%Z.
Proof.
  intros K Oa Ob. pose proof (additions_pos _ _ _ Oa) as Pa. pose proof (additions_pos _ _ _ Ob) as Pb.
  pose proof (f_st P K) as Hs. pose proof (slack_pos ra) as Sa. pose proof (slack_pos rb) as Sb.
  pose proof (slack_le ra Pa) as Ta. pose proof (slack_le rb Pb) as Tb.
  assert (HM : (slack ra * slack rb <= (additions ra + 1) * (additions rb + 1))%Z) by (apply Z.mul_le_mono_nonneg; lia).
  split; [|apply convZ_number; [apply Oa|apply Ob]].
  split; [unfold convZ; rewrite map_length, seq_length; reflexivity|]. split; [|nia].
  eapply Forall_impl; [|apply (convZ_bound a b (slack ra * st P) (slack rb * st P)); try (apply (limbs_bound P _ _ K); assumption); nia].
  intros x Hx. cbn beta in *. rewrite pow2B. split; [lia|].
  assert ((slack ra * slack rb) * (st P * st P) <= (additions ra + 1) * (additions rb + 1) * (st P * st P))%Z
    by (apply Z.mul_le_mono_nonneg_r; nia). lia.
Qed.
Lemma mlimbs_small P n l : facts P -> mlimbs_ok P n l -> (n <= CAP)%Z -> Forall (fun x => 0 <= x < pchar F)%Z l.
Proof.
  intros K (_ & H & Hn) HC. eapply Forall_impl; [|exact H]. intros x Hx. cbn beta in *. rewrite pow2B in Hx.
  pose proof (f_st P K) as Hs. unfold CAP in HC.
  assert (st P * st P <= 2 ^ 44 * 2 ^ 44)%Z by nia.
  assert (6 * n * (st P * st P) <= 6 * 2 ^ 64 * (2 ^ 44 * 2 ^ 44))%Z by (apply Z.mul_le_mono_nonneg; nia). lia.
Qed.
Theorem mul_represents P (a b : sim F) x y : facts P -> represents P a x -> represents P b y ->
  (prod_additions (sim_mul a b) <= CAP)%Z -> mrepresents P (sim_mul a b) (x * y).
Proof.
  intros K (Oa & Na & Va & Ba) (Ob & Nb & Vb & Bb) HC. cbn [sim_mul prod_additions] in HC.
  destruct (mul_limbs P _ _ _ _ K Oa Ob) as [H1 H2].
  assert (E : map toZ (convolve F (limbs a) (limbs b)) = convZ (map toZ (limbs a)) (map toZ (limbs b))).
  { apply conv_toZ. eapply mlimbs_small; eassumption. }
  pose proof (additions_pos _ _ _ Oa). pose proof (additions_pos _ _ _ Ob). pose proof (f_mod P K).
  split; [cbn [sim_mul mlimbs prod_additions]; rewrite E; exact H1|].
  cbn [sim_mul mlimbs prod_additions mval]. rewrite E. unfold st in H2. rewrite H2, Na, Nb, Va, Vb.
  split; [reflexivity|]. split; [reflexivity|]. split; [nia|].
  replace ((additions (red a) + 1) * (additions (red b) + 1) * (modulus P * modulus P))%Z
    with (((additions (red a) + 1) * modulus P) * ((additions (red b) + 1) * modulus P))%Z by ring.
  apply Z.mul_le_mono_nonneg; lia.
Qed.

(** Sums of products. *)
Lemma number_map2 s (f g : nat -> Z) n k : number s (map (fun i => f i + g i)%Z (seq k n)) = (number s (map f (seq k n)) + number s (map g (seq k n)))%Z.
Proof. revert k. induction n as [|n IH]; intros k; cbn [seq map number]; [reflexivity|]. rewrite IH. ring. Qed.
Lemma nth_seq_self {A} (l : list A) d : map (fun i => nth i l d) (seq 0 (length l)) = l.
Proof.
  apply (nth_ext _ _ d d); [now rewrite map_length, seq_length|]. intros i Hi. rewrite map_length, seq_length in Hi.
  now rewrite nth_map_seq.
Qed.
Definition sumZ (a b : list Z) : list Z := map (fun i => nth i a 0 + nth i b 0)%Z (seq 0 11).
Lemma add_limbs P n m a b : facts P -> mlimbs_ok P n a -> mlimbs_ok P m b ->
  mlimbs_ok P (n + m) (sumZ a b) /\ number (st P) (sumZ a b) = (number (st P) a + number (st P) b)%Z.
Proof.
  intros K (La & Ha & Pa) (Lb & Hb & Pb). split.
  - split; [unfold sumZ; now rewrite map_length, seq_length|]. split; [|lia].
    apply Forall_forall. intros x Hx. apply in_map_iff in Hx. destruct Hx as [i [<- _]].
    rewrite pow2B in *. pose proof (f_st P K) as Hs.
    pose proof (Forall_nth_le _ _ (ltac:(nia) : (0 <= 6 * n * (st P * st P))%Z) Ha i) as H1.
    pose proof (Forall_nth_le _ _ (ltac:(nia) : (0 <= 6 * m * (st P * st P))%Z) Hb i) as H2. nia.
  - unfold sumZ. rewrite number_map2. rewrite <- La at 1. rewrite nth_seq_self. rewrite <- Lb, nth_seq_self. reflexivity.
Qed.
Theorem add_represents P (a b : simul F) x y : facts P -> mrepresents P a x -> mrepresents P b y ->
  (prod_additions (simul_add a b) <= CAP)%Z -> mrepresents P (simul_add a b) (x + y).
Proof.
  intros K (Oa & Na & Va & Ba) (Ob & Nb & Vb & Bb) HC. cbn [simul_add prod_additions] in HC.
  destruct (add_limbs P _ _ _ _ K Oa Ob) as [H1 H2].
  assert (E : map toZ (mlimbs (simul_add a b)) = sumZ (map toZ (mlimbs a)) (map toZ (mlimbs b))).
  { rewrite <- (toZ_map (sumZ _ _)) by (eapply mlimbs_small; eassumption). f_equal.
    cbn [simul_add mlimbs]. unfold sumZ. rewrite map_map. apply map_ext. intros i.
    now rewrite fofZ_add, !nth_toZ, !fofZ_toZ. }
  split; [rewrite E; exact H1|]. rewrite E. unfold st in H2. rewrite H2, Na, Nb.
  cbn [simul_add mval prod_additions]. rewrite Va, Vb. split; [reflexivity|]. split; [reflexivity|]. lia.
Qed.

(** Subtraction from a product. *)
Definition subZ P (a b : list Z) : list Z :=
  (map (fun i => nth i a 0 + 4 * nth i (pad_limbs P) 0 - nth i b 0)%Z (seq 0 6) ++ skipn 6 a).
Lemma msub_limbs P n r a b : facts P -> mlimbs_ok P n a -> limbs_ok P r b -> (additions r <= 4)%Z ->
  mlimbs_ok P (n + 12) (subZ P a b) /\ number (st P) (subZ P a b) = (number (st P) a + 4 * pad_value P - number (st P) b)%Z.
Proof.
  intros K (La & Ha & Pa) Ob Hr. pose proof (additions_pos _ _ _ Ob) as Pb. destruct Ob as (Lb & Hb & _).
  pose proof (f_st P K) as Hs. rewrite pow2B in Ha.
  assert (Hsl : (slack r <= 4)%Z) by (unfold slack; lia).
  split.
  - split; [unfold subZ; rewrite app_length, map_length, seq_length, skipn_length, La; reflexivity|]. split; [|lia].
    rewrite pow2B. unfold subZ. apply Forall_app. split.
    + apply Forall_forall. intros x Hx. apply in_map_iff in Hx. destruct Hx as [i [<- Hi]]. apply in_seq in Hi.
      pose proof (Forall_nth_le _ _ (ltac:(nia) : (0 <= 6 * n * (st P * st P))%Z) Ha i) as H1.
      specialize (Hb i ltac:(lia)). pose proof (f_pl P K i ltac:(lia)) as HP. pose proof (facts_width P K i) as HW.
      set (W := (2 ^ Z.of_nat (width P i))%Z) in *. nia.
    + assert (Hf : Forall (fun x => 0 <= x <= 6 * n * (st P * st P))%Z (skipn 6 a)).
      { rewrite <- (firstn_skipn 6 a) in Ha. apply Forall_app in Ha. apply Ha. }
      eapply Forall_impl; [|exact Hf]. intros x Hx. cbn beta in *. nia.
  - destruct (list11 a La) as (a0 & a1 & a2 & a3 & a4 & a5 & a6 & a7 & a8 & a9 & a10 & ->).
    destruct (list6 b Lb) as (b0 & b1 & b2 & b3 & b4 & b5 & ->).
    rewrite <- (f_pnum P K). destruct (list6 _ (f_plen P K)) as (p0 & p1 & p2 & p3 & p4 & p5 & E).
    unfold subZ. rewrite E. cbn [seq map nth app skipn number]. ring.
Qed.
Lemma pad4_Z P (i : nat) : pad4 F P i = fofZ (4 * nth i (pad_limbs P) 0)%Z.
Proof. unfold pad4. rewrite fofZ_mul. change (fofZ 4 : F) with ((1 + 1) * (1 + 1) : F). ring. Qed.
Theorem msub_represents P (a : simul F) (b : sim F) x y : facts P -> mrepresents P a x -> represents P b y ->
  (additions (red b) <= 4)%Z -> (prod_additions a + 12 <= CAP)%Z ->
  exists c, simul_sub P a b = Ok c /\ mrepresents P c (x + 4 * pad_value P - y) /\ prod_additions c = (prod_additions a + 12)%Z.
Proof.
  intros K (Oa & Na & Va & Ba) (Ob & Nb & Vb & Bb) Hr HC.
  destruct (f_pval P K) as [V1 V2]. pose proof (f_mod P K) as V0.
  destruct (msub_limbs P _ _ _ _ K Oa Ob Hr) as [H1 H2]. pose proof (additions_pos _ _ _ Ob) as Pb.
  unfold simul_sub. destruct (Z.ltb_spec 4 (additions (red b))) as [G|_]; [lia|].
  assert (By : (y < 5 * modulus P)%Z) by nia.
  destruct (Z.ltb_spec (mval a + 4 * pad_value P) (sval b)) as [G|_]; [lia|].
  eexists. split; [reflexivity|]. split; [|reflexivity]. cbn zeta. unfold mrepresents. cbn [mlimbs prod_additions mval].
  set (l := map _ (seq 0 NUM_OF_LIMBS) ++ skipn NUM_OF_LIMBS (mlimbs a)).
  assert (E : map toZ l = subZ P (map toZ (mlimbs a)) (map toZ (limbs b))).
  { rewrite <- (toZ_map (subZ P _ _)) by (eapply mlimbs_small; eassumption). f_equal.
    unfold l, subZ, NUM_OF_LIMBS. rewrite map_app. f_equal.
    - rewrite map_map. apply map_ext. intros i. rewrite fofZ_sub, fofZ_add, !nth_toZ, !fofZ_toZ, <- pad4_Z. unfold pad4. ring.
    - rewrite skipn_map, map_map. rewrite <- (map_id (skipn 6 (mlimbs a))) at 1. apply map_ext. intros z. now rewrite fofZ_toZ. }
  rewrite E. split; [exact H1|]. unfold st in H2. rewrite H2, Na, Nb, Va, Vb. split; [reflexivity|]. split; [reflexivity|]. nia.
Qed.
End F.
