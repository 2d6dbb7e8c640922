(** Consequences of the asset-mixing lemmas in integer terms. *)
From Coq Require Import List NArith ZArith Bool Lia ZifyBool ZifyNat ZifyN Field.
From Verif Require Import Base Field PField TurboModel TurboSpec TurboProofs TurboHonest TurboKit
  XfrModel XfrSpec MixModel MixSpec MixProofs.
Import ListNotations.
Ltac Zify.zify_post_hook ::= Z.div_mod_to_equations.
Local Open Scope F_scope.

Section L.
Context (F : PField).
Add Field Fmixl : (f_th F).
Implicit Types (c : tcs F) (w : nat -> F).

(** No satisfying assignment creates value. *)
Lemma conservation ins outs fee_type fee c w :
  sat (snd (asset_mixing F ins outs fee_type fee c)) w -> conv w ->
  Forall (fun r => (toZ (snd r) < 2 ^ 64)%Z) (vals w ins ++ vals w outs) ->
  (toZ (w fee) < 2 ^ 64)%Z ->
  (Z.of_nat (length ins) * 2 ^ 64 < pchar F)%Z -> ((Z.of_nat (length outs) + 1) * 2 ^ 64 < pchar F)%Z ->
  (forall t, t <> fee_type -> ftotal t (vals w ins) = ftotal t (vals w outs)) /\
  ftotal fee_type (vals w ins) = (ftotal fee_type (vals w outs) + toZ (w fee))%Z /\
  (exists r, In r ins /\ w (fst r) = fee_type) /\
  (forall o, In o outs -> exists i, In i ins /\ w (fst i) = w (fst o)).
Proof.
  intros Hs C HB Hfee Li Lo.
  destruct (asset_mixing_sound F ins outs fee_type fee c w Hs) as [_ H].
  destruct (H C) as [H1 [H2 [H3 [H4 _]]]]. apply Forall_app in HB. destruct HB as [Bi Bo].
  assert (Ni : length (vals w ins) = length ins) by (unfold vals; apply map_length).
  assert (No : length (vals w outs) = length outs) by (unfold vals; apply map_length).
  split; [|split; [|split]].
  - intros t Ht. pose proof (ftotal_bound F t _ Bi). pose proof (ftotal_bound F t _ Bo).
    apply (no_wrap F); [rewrite Ni in *; nia|rewrite No in *; nia|]. rewrite <- !fsum_ftotal. now apply H1.
  - pose proof (ftotal_bound F fee_type _ Bi). pose proof (ftotal_bound F fee_type _ Bo). pose proof (toZ_range F (w fee)).
    apply (no_wrap F); [rewrite Ni in *; nia|rewrite No in *; nia|].
    rewrite fofZ_add, fofZ_toZ, <- !fsum_ftotal. exact H2.
  - now apply has_type_in.
  - intros o Ho. destruct (proj1 (has_type_in F w (w (fst o)) ins)) as [i [Hi Ei]]; [|eauto].
    apply H4. apply has_type_in. eauto.
Qed.

(** Forgery: a system that does not use variable 1, satisfied by [w], extended by
    the asset-mixing constraints over any of its variables, stays satisfiable
    with the same values of all its variables (except variable 1). *)
Definition avoids_one (g : gate F) : Prop :=
  w1 g <> 1%nat /\ w2 g <> 1%nat /\ w3 g <> 1%nat /\ w4 g <> 1%nat /\ wo g <> 1%nat /\ g_pub g <> Some 1%nat.
Lemma avoid_sat c w x : Forall avoids_one (grev c) -> sat c w -> sat c (upd F w 1 x).
Proof.
  intros HA HS. unfold sat in *. rewrite Forall_forall in *. intros g Hg.
  destruct (HA g Hg) as [A1 [A2 [A3 [A4 [A5 A6]]]]]. destruct (HS g Hg) as [E B].
  assert (U : forall i, i <> 1%nat -> upd F w 1 x i = w i).
  { intros i Hi. unfold upd. destruct (Nat.eqb_spec i 1); [contradiction|reflexivity]. }
  unfold gate_eq, gate_bool in *. rewrite !U by assumption.
  assert (P : match g_pub g with Some v => upd F w 1 x v | None => 0 end = match g_pub g with Some v => w v | None => 0 end).
  { destruct (g_pub g) as [v|]; [|reflexivity]. apply U. congruence. }
  rewrite P. split; assumption.
Qed.

Lemma forgery ins outs fee_type fee c w :
  wf F c -> Forall avoids_one (grev c) -> sat c w -> w 0%nat = 0 -> (2 <= nvars c)%nat ->
  known F c w ins -> known F c w outs -> (fee < nvars c)%nat ->
  exists w', sat (snd (asset_mixing F ins outs fee_type fee c)) w' /\
    forall i, (i < nvars c)%nat -> i <> 1%nat -> w' i = w i.
Proof.
  intros W A S Z N Ki Ko Hf.
  destruct (asset_mixing_forgeable F ins outs fee_type fee c (upd F w 1 0)) as [w' [H1 [_ [_ [H2 _]]]]].
  - exact W.
  - now apply avoid_sat.
  - split; [lia|]. unfold upd. cbn. exact Z.
  - split; [lia|]. apply upd_same.
  - eapply known_mono; [|exact Ki]. lia.
  - eapply known_mono; [|exact Ko]. lia.
  - exact Hf.
  - exists w'. split; [exact H2|]. intros i Hi Hn. rewrite H1 by exact Hi. unfold upd.
    destruct (Nat.eqb_spec i 1); [contradiction|reflexivity].
Qed.

(** Completeness from the builder's check. *)
Section FromCheck.
Context (as_scalar : N -> F).
Definition scalars (l : list (N * N)) : list (F * F) := map (fun r => (as_scalar (snd r), fofN (fst r))) l.

Fixpoint class_sum (s : F) (T : list N) (l : list (N * N)) : Z :=
  match T with
  | [] => 0%Z
  | t :: T' => ((if f_dec s (as_scalar t) then total t l else 0) + class_sum s T' l)%Z
  end.
Lemma class_sum_nil s T : class_sum s T [] = 0%Z.
Proof. induction T as [|t T IH]; [reflexivity|]. cbn [class_sum total]. rewrite IH. destruct (f_dec s (as_scalar t)); reflexivity. Qed.
Lemma class_sum_cons s T a t l : NoDup T -> In t T ->
  class_sum s T ((a, t) :: l) = ((if f_dec s (as_scalar t) then Z.of_N a else 0) + class_sum s T l)%Z.
Proof.
  induction T as [|t1 T IH]; intros D Hin; [destruct Hin|]. inversion D as [|? ? D1 D2]; subst.
  cbn [class_sum total]. destruct (N.eqb_spec t t1) as [->|n].
  - assert (E : class_sum s T ((a, t1) :: l) = class_sum s T l).
    { clear -D1. induction T as [|t2 T IH]; [reflexivity|]. cbn [class_sum total].
      destruct (N.eqb_spec t1 t2) as [->|n]; [exfalso; apply D1; now left|].
      rewrite IH; [reflexivity|]. intros H. apply D1. now right. }
    rewrite E. destruct (f_dec s (as_scalar t1)); lia.
  - destruct Hin as [->|Hin]; [contradiction|]. rewrite (IH D2 Hin).
    destruct (f_dec s (as_scalar t)), (f_dec s (as_scalar t1)); lia.
Qed.
Lemma fsum_class s T : NoDup T -> forall l, incl (map snd l) T -> fsum_of s (scalars l) = fofZ (class_sum s T l).
Proof.
  intros D. induction l as [|[a t] l IH]; intros HI.
  - rewrite class_sum_nil. reflexivity.
  - cbn [scalars map fsum_of fst snd]. fold (scalars l). rewrite (class_sum_cons s T a t l D) by (apply HI; now left).
    rewrite fofZ_add, IH by (intros x Hx; apply HI; now right).
    destruct (f_dec s (as_scalar t)); [|reflexivity]. unfold fofN. reflexivity.
Qed.
Lemma class_sum_diff s T ins outs fee : NoDup T -> In FEE_TYPE T ->
  (forall t, In t T -> total t ins - total t outs = if N.eqb t FEE_TYPE then Z.of_N fee else 0)%Z ->
  class_sum s T ins = (class_sum s T outs + (if f_dec s (as_scalar FEE_TYPE) then Z.of_N fee else 0))%Z.
Proof.
  intros D Hin HT.
  assert (G : forall T', NoDup T' -> (forall t, In t T' -> total t ins - total t outs = if N.eqb t FEE_TYPE then Z.of_N fee else 0)%Z ->
    class_sum s T' ins = (class_sum s T' outs +
      (if in_dec N.eq_dec FEE_TYPE T' then (if f_dec s (as_scalar FEE_TYPE) then Z.of_N fee else 0) else 0))%Z).
  { clear. induction T' as [|t T' IH]; intros D H; [reflexivity|]. inversion D as [|? ? D1 D2]; subst.
    cbn [class_sum]. rewrite (IH D2) by (intros x Hx; apply H; now right). clear IH.
    assert (Ht := H t (or_introl eq_refl)). destruct (N.eqb_spec t FEE_TYPE) as [->|n].
    - destruct (in_dec N.eq_dec FEE_TYPE T') as [i|n]; [contradiction|].
      destruct (in_dec N.eq_dec FEE_TYPE (FEE_TYPE :: T')) as [_|n']; [|exfalso; apply n'; now left].
      destruct (f_dec s (as_scalar FEE_TYPE)); lia.
    - destruct (in_dec N.eq_dec FEE_TYPE T') as [i|n1], (in_dec N.eq_dec FEE_TYPE (t :: T')) as [i'|n2];
        try (exfalso; cbn in *; tauto);
        try (destruct i' as [i'|i']; [congruence|contradiction]);
        destruct (f_dec s (as_scalar t)); lia. }
  rewrite (G T D HT). destruct (in_dec N.eq_dec FEE_TYPE T); [reflexivity|contradiction].
Qed.

Lemma complete_from_check ins outs fee vins vouts vfee c :
  check_asset_amount ins outs fee = Ok tt ->
  In FEE_TYPE (map snd ins) -> incl (map snd outs) (map snd ins) ->
  (forall t, In t (map snd ins) -> t <> FEE_TYPE -> In t (map snd outs)) ->
  Inv c -> knownh F c vins (scalars ins) -> knownh F c vouts (scalars outs) -> has F c vfee (fofN fee) ->
  ha F (asset_mixing F vins vouts (as_scalar FEE_TYPE) vfee) c (fun _ _ => True).
Proof.
  intros HC Hf Hcov Hcov2 HI Ki Ko Kf.
  set (T := nodup N.eq_dec (map snd ins)).
  assert (D : NoDup T) by apply NoDup_nodup.
  assert (HT : forall t, In t T <-> In t (map snd ins)) by (intros t; apply nodup_In).
  assert (Hd : forall s, class_sum s T ins = (class_sum s T outs + (if f_dec s (as_scalar FEE_TYPE) then Z.of_N fee else 0))%Z).
  { intros s. apply class_sum_diff; [exact D|now apply HT|]. intros t Ht. apply (check_ok _ _ _ HC). left. now apply HT. }
  assert (Si : forall s, fsum_of s (scalars ins) = fofZ (class_sum s T ins)).
  { intros s. apply fsum_class; [exact D|]. intros t Ht. now apply HT. }
  assert (So : forall s, fsum_of s (scalars outs) = fofZ (class_sum s T outs)).
  { intros s. apply fsum_class; [exact D|]. intros t Ht. apply HT. now apply Hcov. }
  assert (Ty : forall s l, has_type s (scalars l) <-> exists t, In t (map snd l) /\ as_scalar t = s).
  { intros s l. unfold has_type, scalars. rewrite map_map. cbn [fst]. rewrite in_map_iff. split.
    - intros [r [E Hr]]. exists (snd r). split; [now apply in_map|exact E].
    - intros [t [Ht E]]. apply in_map_iff in Ht. destruct Ht as [r [<- Hr]]. eauto. }
  apply (asset_mixing_complete F vins vouts (as_scalar FEE_TYPE) vfee (scalars ins) (scalars outs) (fofN fee)); try assumption.
  - intros s Hs. rewrite Si, So, Hd. destruct (f_dec s (as_scalar FEE_TYPE)); [contradiction|]. f_equal. lia.
  - rewrite Si, So, Hd. destruct (f_dec (as_scalar FEE_TYPE) (as_scalar FEE_TYPE)); [|contradiction].
    rewrite fofZ_add. reflexivity.
  - apply Ty. eauto.
  - intros s Hs. apply Ty in Hs. destruct Hs as [t [Ht E]]. apply Ty. exists t. split; [now apply Hcov|exact E].
  - intros s Hs Hin. apply Ty in Hin. destruct Hin as [t [Ht E]]. apply Ty. exists t. split; [|exact E].
    apply Hcov2; [exact Ht|]. intros ->. now apply Hs.
Qed.
End FromCheck.
End L.
