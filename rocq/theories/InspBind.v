(** Inspection: binding of the commitment to the inspector's state. *)
From Coq Require Import List ZArith NArith Bool Lia ZifyBool ZifyNat ZifyN Field.
From Verif Require Import Base Field PField UtilsModel TurboModel RescueModel AxfrModel AxfrSpec AxfrLemmas FoldModel SimModel SimSpec SimProofs
  AfoldModel AfoldSpec AfoldProofs AfoldWhole AfoldBind InspModel InspSpec.
Import ListNotations.
Local Open Scope Z_scope.

Section Bind.
Context (F : PField) (Hp : 2 ^ 254 < pchar F) (P : rescue_instance F).
Local Open Scope F_scope.
Notation S := ristretto.
Let Hp' : (2 ^ 254 <= pchar F)%Z. Proof. lia. Qed.
Let HS : facts S. Proof. apply valid_facts. now left. Qed.
Notation H := (AxfrModel.hash F P).
Notation collision l l' := (Exists (collide F H) (combine l l')).

(** Packing. *)
Notation lim x := (0 <= toZ x < 2 ^ 43)%Z.
Lemma rpacked_range l : Forall (fun x : F => lim x) l -> (0 <= rpacked F l < 2 ^ (43 * Z.of_nat (length l)))%Z.
Proof.
  induction 1 as [|x l Hx _ IH]; [cbn; lia|]. cbn [rpacked length]. change (Z.of_nat (BIT_PER_LIMB S)) with 43%Z.
  rewrite Nat2Z.inj_succ, Z.mul_succ_r, Z.pow_add_r by lia. set (p := (2 ^ (43 * Z.of_nat (length l)))%Z) in *. nia.
Qed.
Lemma rpacked_inj l : forall l', Forall (fun x : F => lim x) l -> Forall (fun x : F => lim x) l' -> length l = length l' -> rpacked F l = rpacked F l' -> l = l'.
Proof.
  induction l as [|x l IH]; intros [|y l'] H1 H2 L E; try discriminate L; [reflexivity|]. inversion H1 as [|? ? A1 A2]; inversion H2 as [|? ? B1 B2]; subst.
  cbn [rpacked] in E. change (Z.of_nat (BIT_PER_LIMB S)) with 43%Z in E.
  assert (Ex : toZ x = toZ y).
  { apply (f_equal (fun z => (z mod 2 ^ 43)%Z)) in E. rewrite !(Z.mul_comm (2 ^ 43)), !Z_mod_plus_full, !Z.mod_small in E by assumption. exact E. }
  f_equal; [now apply toZ_inj|]. apply IH; auto; lia.
Qed.
Lemma rcompress_inj l l' : Forall (fun x : F => lim x) l -> Forall (fun x : F => lim x) l' -> length l = length l' -> rcompress F l = rcompress F l' -> l = l'.
Proof.
  intros H1 H2 L E. unfold rcompress, chunks in E. rewrite <- L in E.
  rewrite <- (chunks_concat num_limbs_compressed (length l) ltac:(unfold num_limbs_compressed; lia) l (le_n _)).
  rewrite <- (chunks_concat num_limbs_compressed (length l) ltac:(unfold num_limbs_compressed; lia) l' ltac:(lia)). f_equal.
  pose proof (chunks_shape num_limbs_compressed (length l) l l' L) as HSh. pose proof (chunks_forall _ num_limbs_compressed (length l) l H1) as A1.
  pose proof (chunks_forall _ num_limbs_compressed (length l) l' H2) as A2.
  pose proof (chunks_len num_limbs_compressed (length l) ltac:(unfold num_limbs_compressed; lia) l) as AL.
  revert E HSh A1 A2 AL. generalize (chunks_fuel (length l) num_limbs_compressed l) (chunks_fuel (length l) num_limbs_compressed l'). clear H1 H2 L.
  intros cs cs' E HSh. induction HSh as [|a b cs cs' Lab _ IH]; intros A1 A2 AL; [reflexivity|]. cbn [map] in E.
  inversion A1; inversion A2; inversion AL as [|? ? Ba AL']; subst.
  pose proof (f_equal (hd 0) E) as E0. apply (f_equal (@tl F)) in E. cbn [hd tl] in E0, E. f_equal; [|now apply IH].
  apply rpacked_inj; try assumption. apply (f_equal toZ) in E0.
  pose proof (rpacked_range a ltac:(assumption)) as Ra. pose proof (rpacked_range b ltac:(assumption)) as Rb. rewrite <- Lab in Rb.
  assert (T : (2 ^ (43 * Z.of_nat (length a)) <= 2 ^ 215)%Z) by (apply Z.pow_le_mono_r; unfold num_limbs_compressed in Ba; lia).
  assert (T2 : (2 ^ 215 < 2 ^ 254)%Z) by reflexivity. rewrite !toZ_small in E0 by lia. exact E0.
Qed.
(** Limbs. *)
Lemma rlimbs_value x : (0 <= x < 2 ^ 253)%Z -> Forall (fun z : F => lim z) (limbs (sim_from F S x)) /\ number (st S) (map toZ (limbs (sim_from F S x))) = x.
Proof.
  intros Hx. destruct (from_ok F Hp' S x HS) as [(L & O & _) N]; [change (st S * st S * st S * st S * st S * tp S)%Z with (2 ^ 253)%Z; exact Hx|].
  split; [|exact N]. apply Forall_forall. intros z Hz. apply (In_nth _ _ 0) in Hz. destruct Hz as (i & Hi & <-). rewrite map_length in L.
  specialize (O i ltac:(rewrite L in Hi; exact Hi)). rewrite nth_toZ in O. change (slack Strict) with 1%Z in O. split; [apply O|]. eapply Z.lt_le_trans; [apply O|].
  rewrite Z.mul_1_l. apply Z.pow_le_mono_r; [lia|]. unfold width. destruct (Nat.eqb _ _); cbn; lia.
Qed.
Notation lims := (flat_map (fun x => limbs (sim_from F S x))).
Lemma rlims_len l : length (lims l) = (6 * length l)%nat.
Proof. induction l as [|x l IH]; [reflexivity|]. cbn [flat_map length]. rewrite app_length, IH. change (length (limbs (sim_from F S x))) with 6%nat. lia. Qed.
Lemma rlims_inj l : forall l', length l = length l' -> Forall (fun z => 0 <= z < 2 ^ 253)%Z l -> Forall (fun z => 0 <= z < 2 ^ 253)%Z l' -> lims l = lims l' -> l = l'.
Proof.
  induction l as [|x l IH]; intros [|y l'] L H1 H2 E; try discriminate L; [reflexivity|]. inversion H1; inversion H2; subst. cbn [flat_map] in E.
  apply (app_split 6) in E; [|reflexivity..]. destruct E as [E1 E2]. f_equal; [|apply IH; auto].
  destruct (rlimbs_value x) as [_ <-]; [assumption|]. destruct (rlimbs_value y) as [_ <-]; [assumption|]. now rewrite E1.
Qed.
Lemma rlims_lim l : Forall (fun z => 0 <= z < 2 ^ 253)%Z l -> Forall (fun z : F => lim z) (lims l).
Proof. induction 1 as [|x l Hx _ IH]; cbn [flat_map]; [constructor|]. apply Forall_app. split; [now apply rlimbs_value|exact IH]. Qed.
Theorem state_binding data rhos data' rhos' r r' comm : length data = length data' -> length rhos = length rhos' ->
  Forall (fun z => 0 <= z < 2 ^ 253)%Z (data ++ rhos) -> Forall (fun z => 0 <= z < 2 ^ 253)%Z (data' ++ rhos') ->
  state_comm F P data rhos r = Ok comm -> state_comm F P data' rhos' r' = Ok comm ->
  (data = data' /\ rhos = rhos' /\ r = r') \/ collision (state_inputs F P data rhos r) (state_inputs F P data' rhos' r').
Proof.
  intros L1 L2 H1 H2 E E'. unfold state_comm in E, E'.
  assert (LL : length (data ++ rhos) = length (data' ++ rhos')) by (rewrite !app_length; lia).
  assert (LC : length (rcompress F (lims (data ++ rhos))) = length (rcompress F (lims (data' ++ rhos')))).
  { unfold rcompress, chunks. rewrite !map_length, !rlims_len, <- LL. eapply Forall2_len, chunks_shape. now rewrite !rlims_len, LL. }
  assert (LR : length (resized 0 (rcompress F (lims (data ++ rhos)) ++ [r])) = length (resized 0 (rcompress F (lims (data' ++ rhos')) ++ [r']))).
  { unfold resized. rewrite !app_length, !repeat_length, LC. reflexivity. }
  destruct (sponge_inj F P _ _ comm LR E E') as [EQ|C]; [|right; exact C].
  left. unfold resized in EQ. rewrite !app_length, LC in EQ. apply app_inv_tail in EQ.
  apply (app_split (length (rcompress F (lims (data ++ rhos))))) in EQ; [|reflexivity|now rewrite LC]. destruct EQ as [EQ ER].
  apply rcompress_inj in EQ; [|now apply rlims_lim|now apply rlims_lim|now rewrite !rlims_len, LL]. apply rlims_inj in EQ; auto.
  apply (app_split (length data)) in EQ; [|reflexivity|lia]. destruct EQ as [-> ->]. injection ER as ->. auto.
Qed.
Lemma state_comm_ok x y a b r : exists c, state_comm F P [x; y] [a; b] r = Ok c.
Proof. eexists. unfold state_comm. cbn [app flat_map sim_from limbs digits NUM_OF_LIMBS]. unfold rcompress, chunks. cbn [length chunks_fuel num_limbs_compressed firstn skipn map app].
  unfold resized. cbn [length]. change ((6 - 1 + 2) / 3 * 3 + 1 - 6)%nat with 1%nat. cbn [repeat app sponge absorb]. reflexivity. Qed.
End Bind.
