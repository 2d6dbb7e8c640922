(** Address folding: binding of the inspection commitment, and the challenges. *)
From Coq Require Import List ZArith NArith Bool Lia ZifyBool ZifyNat ZifyN Field.
From Verif Require Import Base Field PField UtilsModel TurboModel RescueModel AxfrModel AxfrSpec AxfrLemmas FoldModel SimModel SimSpec SimProofs
  AfoldModel AfoldSpec AfoldProofs AfoldWhole.
Import ListNotations.
Local Open Scope Z_scope.

Section Bind.
Context (F : PField) (Hp : 2 ^ 254 < pchar F) (P : rescue_instance F).
Local Open Scope F_scope.
Notation S := secq256k1.
Let Hp' : (2 ^ 254 <= pchar F)%Z. Proof. lia. Qed.
Let HS : facts S. Proof. apply valid_facts. now right. Qed.
Notation H := (hash F P).
Notation collision l l' := (Exists (collide F H) (combine l l')).

Lemma absorb_inj n : forall l l' h h' z, (length l <= n)%nat -> length l = length l' -> absorb F P h l = Ok z -> absorb F P h' l' = Ok z ->
  (h = h' /\ l = l') \/ collision (absorbed H h l) (absorbed H h' l').
Proof.
  induction n as [|n IH]; intros l l' h h' z Hn L E E'.
  - destruct l; [|cbn in Hn; lia]. destruct l'; [|discriminate L]. cbn in *. left. split; congruence.
  - destruct l as [|a [|b [|d l]]]; destruct l' as [|a' [|b' [|d' l']]]; try discriminate L; try discriminate E.
    + cbn in *. left. split; congruence.
    + cbn [absorb absorbed combine] in *. destruct (IH l l' _ _ z ltac:(cbn in Hn; lia) ltac:(cbn in L; lia) E E') as [[E1 ->]|C].
      * destruct (in4_dec F (h, a, b, d) (h', a', b', d')) as [e|n0]; [left; inversion e; auto|]. right. left. split; [exact n0|exact E1].
      * right. now right.
Qed.
Lemma sponge_inj l l' z : length l = length l' -> sponge F P l = Ok z -> sponge F P l' = Ok z ->
  l = l' \/ collision (match l with a :: b :: c :: d :: t => (a, b, c, d) :: absorbed H (H a b c d) t | _ => [] end)
                      (match l' with a :: b :: c :: d :: t => (a, b, c, d) :: absorbed H (H a b c d) t | _ => [] end).
Proof.
  intros L E E'. destruct l as [|a [|b [|c [|d l]]]]; destruct l' as [|a' [|b' [|c' [|d' l']]]]; try discriminate L; try discriminate E. cbn [sponge] in *.
  destruct (absorb_inj _ l l' _ _ z (le_n _) ltac:(cbn in L; lia) E E') as [[E1 ->]|C].
  - destruct (in4_dec F (a, b, c, d) (a', b', c', d')) as [e|n0]; [left; inversion e; subst; auto|]. right. left. split; [exact n0|exact E1].
  - right. now right.
Qed.
(** Packing. *)
Notation lim x := (0 <= toZ x < 2 ^ 44)%Z.
Lemma packed_range l : Forall (fun x : F => lim x) l -> (0 <= packed F l < 2 ^ (44 * Z.of_nat (length l)))%Z.
Proof.
  induction 1 as [|x l Hx _ IH]; [cbn; lia|]. cbn [packed length]. change (Z.of_nat (BIT_PER_LIMB S)) with 44%Z.
  rewrite Nat2Z.inj_succ, Z.mul_succ_r, Z.pow_add_r by lia. set (p := (2 ^ (44 * Z.of_nat (length l)))%Z) in *. nia.
Qed.
Lemma packed_inj l : forall l', Forall (fun x : F => lim x) l -> Forall (fun x : F => lim x) l' -> length l = length l' -> packed F l = packed F l' -> l = l'.
Proof.
  induction l as [|x l IH]; intros [|y l'] H1 H2 L E; try discriminate L; [reflexivity|]. inversion H1 as [|? ? A1 A2]; inversion H2 as [|? ? B1 B2]; subst.
  cbn [packed] in E. change (Z.of_nat (BIT_PER_LIMB S)) with 44%Z in E.
  assert (Ex : toZ x = toZ y).
  { apply (f_equal (fun z => (z mod 2 ^ 44)%Z)) in E. rewrite !(Z.mul_comm (2 ^ 44)), !Z_mod_plus_full, !Z.mod_small in E by assumption. exact E. }
  f_equal; [now apply toZ_inj|]. apply IH; auto; lia.
Qed.
Lemma chunks_concat {A} n f : (0 < n)%nat -> forall l : list A, (length l <= f)%nat -> concat (chunks_fuel f n l) = l.
Proof.
  intros Hn. induction f as [|f IH]; intros l L; [destruct l; [reflexivity|cbn in L; lia]|]. cbn [chunks_fuel]. destruct l as [|a l]; [reflexivity|].
  cbn [concat]. rewrite IH; [apply firstn_skipn|]. rewrite skipn_length. cbn [length] in *. lia.
Qed.
Lemma chunks_shape {A} n f : forall l l' : list A, length l = length l' -> Forall2 (fun a b => length a = length b) (chunks_fuel f n l) (chunks_fuel f n l').
Proof.
  induction f as [|f IH]; intros l l' L; cbn [chunks_fuel]; [constructor|]. destruct l, l'; try discriminate L; constructor.
  - rewrite !firstn_length. lia.
  - apply IH. rewrite !skipn_length. lia.
Qed.
Lemma chunks_forall {A} (Q : A -> Prop) n f : forall l, Forall Q l -> Forall (Forall Q) (chunks_fuel f n l).
Proof.
  induction f as [|f IH]; intros l HQ; cbn [chunks_fuel]; [constructor|]. destruct l as [|a l]; [constructor|].
  constructor; [|apply IH]; rewrite <- (firstn_skipn n) in HQ; apply Forall_app in HQ; apply HQ.
Qed.
Lemma compress_inj l l' : Forall (fun x : F => lim x) l -> Forall (fun x : F => lim x) l' -> length l = length l' -> compress F l = compress F l' -> l = l'.
Proof.
  intros H1 H2 L E. unfold compress, chunks in E. rewrite <- L in E.
  rewrite <- (chunks_concat num_limbs_compressed (length l) ltac:(unfold num_limbs_compressed; lia) l (le_n _)).
  rewrite <- (chunks_concat num_limbs_compressed (length l) ltac:(unfold num_limbs_compressed; lia) l' ltac:(lia)). f_equal.
  pose proof (chunks_shape num_limbs_compressed (length l) l l' L) as HSh. pose proof (chunks_forall _ num_limbs_compressed (length l) l H1) as A1.
  pose proof (chunks_forall _ num_limbs_compressed (length l) l' H2) as A2.
  pose proof (chunks_len num_limbs_compressed (length l) ltac:(unfold num_limbs_compressed; lia) l) as AL.
  revert E HSh A1 A2 AL. generalize (chunks_fuel (length l) num_limbs_compressed l) (chunks_fuel (length l) num_limbs_compressed l'). clear H1 H2 L.
  intros cs cs' E HSh. induction HSh as [|a b cs cs' Lab _ IH]; intros A1 A2 AL; [reflexivity|]. cbn [map] in E.
  inversion A1; inversion A2; inversion AL as [|? ? Ba AL']; subst.
  pose proof (f_equal (hd 0) E) as E0. apply (f_equal (@tl F)) in E. cbn [hd tl] in E0, E. f_equal; [|now apply IH].
  apply packed_inj; try assumption. apply (f_equal toZ) in E0.
  pose proof (packed_range a ltac:(assumption)) as Ra. pose proof (packed_range b ltac:(assumption)) as Rb. rewrite <- Lab in Rb.
  assert (T : (2 ^ (44 * Z.of_nat (length a)) <= 2 ^ 220)%Z) by (apply Z.pow_le_mono_r; unfold num_limbs_compressed in Ba; lia).
  assert (T2 : (2 ^ 220 < 2 ^ 254)%Z) by reflexivity. rewrite !toZ_small in E0 by lia. exact E0.
Qed.
(** Limbs. *)
Lemma limbs_value x : (0 <= x < 2 ^ 256)%Z -> Forall (fun z : F => lim z) (limbs (sim_from F S x)) /\ number (st S) (map toZ (limbs (sim_from F S x))) = x.
Proof.
  intros Hx. destruct (from_ok F Hp' S x HS) as [(L & O & _) N]; [change (st S * st S * st S * st S * st S * tp S)%Z with (2 ^ 256)%Z; exact Hx|].
  split; [|exact N]. apply Forall_forall. intros z Hz. apply (In_nth _ _ 0) in Hz. destruct Hz as (i & Hi & <-). rewrite map_length in L.
  specialize (O i ltac:(rewrite L in Hi; exact Hi)). rewrite nth_toZ in O. change (slack Strict) with 1%Z in O. split; [apply O|]. eapply Z.lt_le_trans; [apply O|].
  rewrite Z.mul_1_l. apply Z.pow_le_mono_r; [lia|]. unfold width. destruct (Nat.eqb _ _); cbn; lia.
Qed.
Notation lims := (flat_map (fun x => limbs (sim_from F S x))).
Lemma lims_len l : length (lims l) = (6 * length l)%nat.
Proof. induction l as [|x l IH]; [reflexivity|]. cbn [flat_map length]. rewrite app_length, IH. change (length (limbs (sim_from F S x))) with 6%nat. lia. Qed.
Lemma lims_inj l : forall l', length l = length l' -> Forall (fun z => 0 <= z < 2 ^ 256)%Z l -> Forall (fun z => 0 <= z < 2 ^ 256)%Z l' -> lims l = lims l' -> l = l'.
Proof.
  induction l as [|x l IH]; intros [|y l'] L H1 H2 E; try discriminate L; [reflexivity|]. inversion H1; inversion H2; subst. cbn [flat_map] in E.
  apply (app_split 6) in E; [|reflexivity..]. destruct E as [E1 E2]. f_equal; [|apply IH; auto].
  destruct (limbs_value x) as [_ <-]; [assumption|]. destruct (limbs_value y) as [_ <-]; [assumption|]. now rewrite E1.
Qed.
Lemma lims_lim l : Forall (fun z => 0 <= z < 2 ^ 256)%Z l -> Forall (fun z : F => lim z) (lims l).
Proof. induction 1 as [|x l Hx _ IH]; cbn [flat_map]; [constructor|]. apply Forall_app. split; [now apply limbs_value|exact IH]. Qed.
Theorem comm_binding data rhos data' rhos' r r' comm : length data = length data' -> length rhos = length rhos' ->
  Forall (fun z => 0 <= z < 2 ^ 256)%Z (data ++ rhos) -> Forall (fun z => 0 <= z < 2 ^ 256)%Z (data' ++ rhos') ->
  inspection_comm F P data rhos r = Ok comm -> inspection_comm F P data' rhos' r' = Ok comm ->
  (data = data' /\ rhos = rhos' /\ r = r') \/ collision (comm_inputs F P data rhos r) (comm_inputs F P data' rhos' r').
Proof.
  intros L1 L2 H1 H2 E E'. unfold inspection_comm in E, E'.
  assert (LL : length (data ++ rhos) = length (data' ++ rhos')) by (rewrite !app_length; lia).
  assert (LC : length (compress F (lims (data ++ rhos))) = length (compress F (lims (data' ++ rhos')))).
  { unfold compress, chunks. rewrite !map_length, !lims_len, <- LL. eapply Forall2_len, chunks_shape. now rewrite !lims_len, LL. }
  assert (LR : length (resized 0 (compress F (lims (data ++ rhos)) ++ [r])) = length (resized 0 (compress F (lims (data' ++ rhos')) ++ [r']))).
  { unfold resized. rewrite !app_length, !repeat_length, LC. reflexivity. }
  destruct (sponge_inj _ _ comm LR E E') as [EQ|C]; [|right; exact C].
  left. unfold resized in EQ. rewrite !app_length, LC in EQ. apply app_inv_tail in EQ.
  apply (app_split (length (compress F (lims (data ++ rhos))))) in EQ; [|reflexivity|now rewrite LC]. destruct EQ as [EQ ER].
  apply compress_inj in EQ; [|now apply lims_lim|now apply lims_lim|now rewrite !lims_len, LL]. apply lims_inj in EQ; auto.
  apply (app_split (length data)) in EQ; [|reflexivity|lia]. destruct EQ as [-> ->]. injection ER as ->. auto.
Qed.
Lemma comm_ok X Y Z RX RY RS r : exists c, inspection_comm F P [X; Y; Z] [RX; RY; RS] r = Ok c.
Proof. eexists. unfold inspection_comm. cbn [app flat_map sim_from limbs digits NUM_OF_LIMBS]. unfold compress, chunks. cbn [length chunks_fuel num_limbs_compressed firstn skipn map app].
  unfold resized. cbn [length]. change ((9 - 1 + 2) / 3 * 3 + 1 - 9)%nat with 1%nat. cbn [repeat app sponge absorb]. reflexivity. Qed.
End Bind.

Section Challenges.
Context (K : PField).
Add Field Kch : (f_th K).
Local Open Scope F_scope.
Lemma quadratic (a b c l1 l2 l3 : K) : l1 <> l2 -> l1 <> l3 -> l2 <> l3 ->
  a + l1 * b + l1 * l1 * c = 0 -> a + l2 * b + l2 * l2 * c = 0 -> a + l3 * b + l3 * l3 * c = 0 -> a = 0 /\ b = 0 /\ c = 0.
Proof.
  intros N1 N2 N3 E1 E2 E3.
  assert (D : forall x y : K, x <> y -> x - y <> 0) by (intros x y Hn Hz; apply Hn; now apply (proj1 (fsub_0 K _ _))).
  assert (B2 : b + c * (l1 + l2) = 0).
  { apply (fmul_cancel K (l1 - l2)); [now apply D|]. transitivity ((a + l1 * b + l1 * l1 * c) - (a + l2 * b + l2 * l2 * c) : K); [ring|]. rewrite E1, E2. ring. }
  assert (B3 : b + c * (l1 + l3) = 0).
  { apply (fmul_cancel K (l1 - l3)); [now apply D|]. transitivity ((a + l1 * b + l1 * l1 * c) - (a + l3 * b + l3 * l3 * c) : K); [ring|]. rewrite E1, E3. ring. }
  assert (C : c = 0).
  { apply (fmul_cancel K (l2 - l3)); [now apply D|]. transitivity ((b + c * (l1 + l2)) - (b + c * (l1 + l3)) : K); [ring|]. rewrite B2, B3. ring. }
  subst c. assert (B : b = 0) by (rewrite <- B2; ring). subst b. split; [rewrite <- E1; ring|auto].
Qed.
End Challenges.
