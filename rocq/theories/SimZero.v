(** The zero check: groups, carries, and its exactness outside and inside the
    circuit. *)
From Coq Require Import List ZArith Bool Lia ZifyBool ZifyNat Field.
From Verif Require Import Base Field PField TurboModel TurboSpec TurboProofs TurboHonest TurboKit RescueModel RescueProofs
  SimModel SimSpec SimProofs.
Import ListNotations.
Local Open Scope Z_scope.

(** ** Over the integers *)
Fixpoint groupsZ (s : Z) (l : list Z) : list (Z * nat) :=
  match l with
  | [] => []
  | [a] => [(a, 1%nat)]
  | a :: b :: l' => (a + b * s, 2%nat) :: groupsZ s l'
  end.
Definition zipZ (s : Z) (l r : list Z) : list (Z * Z * nat) :=
  map (fun p => (fst (fst p), fst (snd p), snd (fst p))) (combine (groupsZ s l) (groupsZ s r)).
Definition gev (P : params) (gs : list (Z * Z * nat)) : Z :=
  fold_right (fun g acc => fst (fst g) - snd (fst g) + shift P (snd g) * acc) 0 gs.

Lemma pair_ind {A} (Q : list A -> Prop) : Q [] -> (forall a, Q [a]) -> (forall a b l, Q l -> Q (a :: b :: l)) -> forall l, Q l.
Proof.
  intros H0 H1 H2. fix go 1. intros [|a [|b l]]; [exact H0|apply H1|apply H2, go].
Qed.
Lemma gev_zip P l : forall r, length l = length r -> gev P (zipZ (st P) l r) = number (st P) l - number (st P) r.
Proof.
  induction l as [|a|a b l IH] using pair_ind; intros r H.
  - destruct r; [reflexivity|discriminate].
  - destruct r as [|a' [|]]; try discriminate. cbn -[shift Z.mul]. rewrite shift1. ring.
  - destruct r as [|a' [|b' r]]; try discriminate. cbn [length] in H.
    unfold zipZ in *. cbn [groupsZ combine map fst snd gev fold_right number]. fold (gev P).
    change (fold_right _ 0 _) with (gev P (map (fun p => (fst (fst p), fst (snd p), snd (fst p))) (combine (groupsZ (st P) l) (groupsZ (st P) r)))).
    rewrite IH by lia. rewrite shift2. ring.
Qed.

(** One group: bounds on both sides. *)
Definition gok (P : params) (g : Z * Z * nat) : Prop :=
  let '(l, r, n) := g in
  (n = 2%nat /\ 0 <= l <= 187 * (st P * st P * st P) /\ 0 <= r <= 7 * (st P * st P * st P)) \/
  (n = 1%nat /\ 0 <= l <= 186 * (st P * st P) /\ 0 <= r <= 6 * (st P * st P)).
Lemma gok_zip P : facts P -> forall l r, length l = length r ->
  Forall (fun x => 0 <= x <= 186 * (st P * st P)) l -> Forall (fun x => 0 <= x <= 6 * (st P * st P)) r ->
  Forall (gok P) (zipZ (st P) l r).
Proof.
  intros K. pose proof (f_st P K) as Hs.
  induction l as [|a|a b l IH] using pair_ind; intros r H Hl Hr.
  - constructor.
  - destruct r as [|a' [|]]; try discriminate. inversion Hl; inversion Hr; subst.
    constructor; [|constructor]. right. cbn [fst snd]. auto.
  - destruct r as [|a' [|b' r]]; try discriminate. inversion Hl as [|? ? A1 A2]; inversion Hr as [|? ? B1 B2]; subst.
    inversion A2; inversion B2; subst. cbn [length] in H. constructor; [|apply IH; try assumption; lia].
    left. cbn [fst snd]. split; [reflexivity|]. set (s := st P) in *. assert (0 <= s * s) by nia.
    assert (187 * (s * s) <= s * (s * s)) by nia. assert (b * s <= 186 * (s * s) * s) by nia. assert (b' * s <= 6 * (s * s) * s) by nia.
    assert (0 <= b * s /\ 0 <= b' * s) by nia. split; lia.
Qed.

(** The relation the equations of all groups express. *)
Fixpoint chain (P : params) (gs : list (Z * Z * nat)) (c a : Z) : Prop :=
  match gs with
  | [] => c = a
  | (l, r, n) :: gs' => exists c', l + c + pad P n = r + shift P n * c' + (a + pad P n) mod shift P n
      /\ chain P gs' c' ((a + pad P n) / shift P n)
  end.
Lemma shift_pos P n : 0 < shift P n.
Proof. unfold shift. apply Z.pow_pos_nonneg; lia. Qed.
Lemma chain_gev P gs : forall c a, chain P gs c a -> gev P gs = a - c.
Proof.
  induction gs as [|[[l r] n] gs IH]; intros c a H; cbn [chain gev fold_right fst snd] in *; [lia|].
  destruct H as (c' & E & H). apply IH in H. unfold gev in H. rewrite H.
  pose proof (Z.div_mod (a + pad P n) (shift P n)) as D. pose proof (shift_pos P n). specialize (D ltac:(lia)).
  set (q := (a + pad P n) / shift P n) in *. set (m := (a + pad P n) mod shift P n) in *. nia.
Qed.

Lemma st2_le P : facts P -> st P * st P <= 2 ^ 88.
Proof. intros K. pose proof (f_st P K). change (2 ^ 88) with (2 ^ 44 * 2 ^ 44). apply Z.mul_le_mono_nonneg; lia. Qed.
Lemma st3_le P : facts P -> st P * st P * st P <= 2 ^ 132.
Proof.
  intros K. pose proof (f_st P K). change (2 ^ 132) with (2 ^ 88 * 2 ^ 44).
  apply Z.mul_le_mono_nonneg; [apply Z.mul_nonneg_nonneg; lia|now apply st2_le|lia|lia].
Qed.
Lemma st2_ge P : facts P -> 2 ^ 43 * st P <= st P * st P.
Proof. intros K. pose proof (f_st P K). apply Z.mul_le_mono_nonneg_r; lia. Qed.
(** The state of an honest run before the groups [gs]. *)
Definition ready (P : params) (gs : list (Z * Z * nat)) (c a : Z) : Prop :=
  Forall (gok P) gs /\ gev P gs = a - c /\ 0 <= c <= 400 * st P /\ 0 <= a <= 400 * st P.
Definition next (P : params) (l r : Z) (n : nat) (c : Z) : Z := (l + c + pad P n - r) / shift P n.
Lemma ready_next P l r n gs c a : facts P -> ready P ((l, r, n) :: gs) c a ->
  r < pad P n /\ 0 <= l + c + pad P n - r < 2 ^ 200 /\
  l + c + pad P n - r = shift P n * next P l r n c + (a + pad P n) mod shift P n /\
  0 <= next P l r n c < 32 * (st P * st P) /\
  0 <= (a + pad P n) / shift P n < 2 ^ 200 /\ 0 < pad P n < 2 ^ 200 /\ 0 <= shift P n < 2 ^ 200 /\
  ready P gs (next P l r n c) ((a + pad P n) / shift P n).
Proof.
  intros K (HF & HG & Hc & Ha). pose proof (f_st P K) as Hs. inversion HF as [|? ? G1 G2]; subst.
  cbn [gev fold_right fst snd] in HG. fold (gev P gs) in HG.
  pose proof (shift_pos P n) as Sp.
  assert (N1 : r < pad P n /\ 0 <= l + c + pad P n - r /\ l + c + pad P n - r < 400 * st P * shift P n /\
     a + pad P n < 400 * st P * shift P n /\ shift P n <= st P * st P /\ pad P n <= st P * st P * st P * 128 /\ 0 < pad P n).
  { set (s := st P) in *. assert (S2 : 2 ^ 43 * s <= s * s) by nia. assert (S3 : 2 ^ 43 * (s * s) <= s * (s * s)) by nia.
    destruct G1 as [(-> & Hl & Hr) | (-> & Hl & Hr)].
    - rewrite shift2, pad2. fold s. repeat split; nia.
    - rewrite shift1, pad1. fold s. repeat split; nia. }
  destruct N1 as (N1 & N2 & N3 & N4 & N5 & N6 & N7).
  pose proof (Z.div_mod (a + pad P n) (shift P n) ltac:(lia)) as D.
  pose proof (Z.mod_pos_bound (a + pad P n) (shift P n) Sp) as M.
  set (q := (a + pad P n) / shift P n) in *. set (m := (a + pad P n) mod shift P n) in *.
  assert (E : l + c + pad P n - r = shift P n * (q - gev P gs) + m) by nia.
  assert (Q : next P l r n c = q - gev P gs).
  { unfold next. symmetry. apply (Z.div_unique _ _ _ m); [left; exact M|exact E]. }
  assert (B1 : 0 <= next P l r n c < 400 * st P).
  { unfold next. split; [apply Z.div_pos; lia|]. apply Z.div_lt_upper_bound; [lia|]. lia. }
  assert (B2 : 0 <= q < 400 * st P).
  { unfold q. split; [apply Z.div_pos; lia|]. apply Z.div_lt_upper_bound; [lia|]. lia. }
  pose proof (st2_le P K) as S2. pose proof (st3_le P K) as S3. pose proof (st2_ge P K) as S4.
  assert (N3' : l + c + pad P n - r < 2 ^ 200).
  { assert (400 * st P * shift P n <= 400 * 2 ^ 44 * 2 ^ 88) by (apply Z.mul_le_mono_nonneg; lia). lia. }
  split; [exact N1|]. split; [split; [exact N2|exact N3']|]. split; [rewrite Q; exact E|].
  split; [lia|]. split; [lia|]. split; [lia|]. split; [lia|]. split; [exact G2|]. split; [lia|]. lia.
Qed.

Section Zero.
Context (F : PField) (Hp : 2 ^ 254 <= pchar F).
Add Field Fsimz : (f_th F).
Local Open Scope F_scope.
Lemma feqb_same (x y : F) : x = y -> feqb x y = true.
Proof. intros ->. destruct (feqb_spec y y); congruence. Qed.
Definition toF3 (g : Z * Z * nat) : F * F * nat := (fofZ (fst (fst g)), fofZ (snd (fst g)), snd g).

Lemma pad_toZ P : facts P -> forall l r n gs c a, ready P ((l, r, n) :: gs) c a -> toZ (fofZ (F := F) (pad P n)) = pad P n.
Proof. intros K l r n gs c a H. destruct (ready_next P _ _ _ _ _ _ K H) as (_ & _ & _ & _ & _ & H1 & _). apply toZ_small. lia. Qed.
Lemma carry_next P l r n gs c a : facts P -> ready P ((l, r, n) :: gs) c a ->
  carry_of F P (fofZ l) (fofZ r) (fofZ c) n = fofZ (next P l r n c).
Proof.
  intros K H. destruct (ready_next P _ _ _ _ _ _ K H) as (_ & H1 & _). unfold carry_of, next. f_equal. f_equal.
  rewrite <- !fofZ_add, <- fofZ_sub. apply toZ_small. lia.
Qed.
Lemma carry_equation P l r n gs c a : facts P -> ready P ((l, r, n) :: gs) c a ->
  fofZ l + fofZ (pad P n) + fofZ c - fofZ r =
  fofZ (F := F) (next P l r n c) * fofZ (shift P n) + fofZ ((a + pad P n) mod shift P n)%Z.
Proof.
  intros K H. destruct (ready_next P _ _ _ _ _ _ K H) as (_ & _ & H1 & _).
  rewrite <- !fofZ_mul, <- !fofZ_add, <- fofZ_sub. f_equal. lia.
Qed.
Lemma ready_nil P c a : ready P [] c a -> c = a.
Proof. intros (_ & H & _). cbn in H. lia. Qed.

Lemma check_groups_ok P gs : facts P -> forall c a, ready P gs c a -> check_groups F P (map toF3 gs) (fofZ c) a = Ok tt.
Proof.
  intros K. induction gs as [|[[l r] n] gs IH]; intros c a H; cbn [map check_groups]; [reflexivity|].
  unfold toF3 at 1. cbn [fst snd].
  rewrite (carry_next P l r n gs c a K H), (pad_toZ P K l r n gs c a H).
  destruct (ready_next P _ _ _ _ _ _ K H) as (H1 & H2 & H3 & H4 & H5 & H6 & H7 & H8).
  destruct (Forall_inv (proj1 H)) as [G|G].
  all: assert (Hr : toZ (fofZ (F := F) r) = r) by (apply toZ_small; lia).
  all: rewrite Hr; destruct (Z.leb_spec (pad P n) r) as [X|_]; [lia|]; cbn zeta.
  all: rewrite (carry_equation P l r n gs c a K H), (feqb_same _ _ eq_refl).
  all: assert (C : match map toF3 gs with
             | [] => feqb (fofZ (F := F) (next P l r n c)) (fofZ ((a + pad P n) / shift P n)%Z)
             | _ :: _ => (toZ (fofZ (F := F) (next P l r n c)) <? 2 ^ Z.of_nat (surfeit + BIT_PER_LIMB P * 2))%Z
             end = true).
  1, 3: destruct gs as [|g gs]; cbn [map];
        [apply feqb_same; f_equal; now apply (ready_nil P)|
         rewrite bound_carry; pose proof (f_st P K); pose proof (st2_le P K); rewrite toZ_small by lia; apply Z.ltb_lt; lia].
  all: rewrite C; now apply IH.
Qed.

(** From field lists to integer lists. *)
Lemma groups_F P (l : list Z) : groups F P (map fofZ l) = map (fun g => (fofZ (fst g), snd g)) (groupsZ (st P) l).
Proof.
  induction l as [|a|a b l IH] using pair_ind; [reflexivity|reflexivity|].
  cbn [map groups groupsZ fst snd]. rewrite IH, fofZ_add, fofZ_mul. reflexivity.
Qed.
Lemma zip_F P (l r : list Z) : zip_groups F P (map fofZ l) (map fofZ r) = map toF3 (zipZ (st P) l r).
Proof.
  unfold zip_groups, zipZ. rewrite !groups_F. rewrite map_map.
  generalize (groupsZ (st P) l) (groupsZ (st P) r). induction l0 as [|x l0 IH]; intros [|y l1]; cbn [combine map]; try reflexivity.
  rewrite IH. reflexivity.
Qed.
Lemma map_fofZ_toZ (l : list F) : map fofZ (map toZ l) = l.
Proof. rewrite map_map. rewrite <- (map_id l) at 2. apply map_ext. intros. apply fofZ_toZ. Qed.

(** The quotient. *)
Lemma quotient_ok P k : facts P -> (0 <= k <= 31 * modulus P)%Z ->
  let kz := map toZ (limbs (sim_from F P k)) in
  length kz = 6%nat /\ Forall (fun z => 0 <= z < st P)%Z kz /\ number (st P) kz = k /\ (nth 5 kz 0 < 32 * tp P)%Z.
Proof.
  intros K Hk. cbn zeta. pose proof (f_st P K) as Hs. destruct (f_tp P K) as [T1 T2]. pose proof (f_mod P K). pose proof (f_mod1 P K) as M1.
  destruct (digits_toZ F Hp P K 6 k (proj1 Hk)) as [L [B N]].
  assert (Bd : (k < st P * st P * st P * st P * st P * (32 * tp P))%Z).
  { replace (st P * st P * st P * st P * st P * (32 * tp P))%Z with (32 * (st P * st P * st P * st P * st P * tp P))%Z by ring. lia. }
  assert (N' : number (st P) (map toZ (digits F P 6 k)) = k).
  { rewrite N. apply Z.mod_small. split; [lia|]. change (Z.of_nat 6) with 6%Z.
    replace (st P ^ 6)%Z with (st P * st P * st P * st P * st P * st P)%Z by ring.
    assert (st P * st P * st P * st P * st P * (32 * tp P) <= st P * st P * st P * st P * st P * st P)%Z
      by (apply Z.mul_le_mono_nonneg_l; [repeat apply Z.mul_nonneg_nonneg; lia|lia]). lia. }
  cbn [sim_from limbs]. unfold NUM_OF_LIMBS.
  split; [rewrite map_length; exact L|]. split; [exact B|]. split; [exact N'|].
  apply (top_digit P _ K); [rewrite map_length; exact L|exact B|lia|]. rewrite N'. exact Bd.
Qed.
Lemma modulus_toZ P : facts P -> map toZ (map (fofZ (F := F)) (modulus_limbs P)) = modulus_limbs P.
Proof.
  intros K. apply toZ_map. pose proof (f_st P K). eapply Forall_impl; [|apply (f_rl P K)]. intros x Hx. cbn beta in *. lia.
Qed.
Lemma rk_bound P kz : facts P -> Forall (fun z => 0 <= z < st P)%Z kz ->
  Forall (fun x => 0 <= x <= 6 * (st P * st P))%Z (convZ (modulus_limbs P) kz).
Proof.
  intros K Hk. pose proof (f_st P K). apply convZ_bound; try lia.
  - apply Forall_nth_le; [lia|]. eapply Forall_impl; [|apply (f_rl P K)]. intros x Hx. cbn beta in *. lia.
  - apply Forall_nth_le; [lia|]. eapply Forall_impl; [|exact Hk]. intros x Hx. cbn beta in *. lia.
Qed.
Lemma rk_toZ P (k : list F) : facts P -> Forall (fun z => 0 <= z < st P)%Z (map toZ k) ->
  map toZ (convolve F (map fofZ (modulus_limbs P)) k) = convZ (modulus_limbs P) (map toZ k).
Proof.
  intros K Hk. rewrite conv_toZ; [now rewrite modulus_toZ|]. rewrite modulus_toZ by exact K.
  pose proof (f_st P K) as Hs. eapply Forall_impl; [|apply (rk_bound P _ K Hk)]. intros x Hx. cbn beta in *.
  pose proof (st2_le P K). lia.
Qed.
Lemma mlimbs_186 P n l : facts P -> mlimbs_ok P n l -> (n < 32)%Z -> Forall (fun x => 0 <= x <= 186 * (st P * st P))%Z l.
Proof.
  intros K (_ & H & Hn) Hlt. eapply Forall_impl; [|exact H]. intros x Hx. cbn beta in *. rewrite pow2B in Hx.
  pose proof (f_st P K). nia.
Qed.

(** Everything an honest check of a multiple of the modulus needs. *)
Lemma multiple_ready P (m : simul F) x : facts P -> mrepresents P m x -> (prod_additions m < 32)%Z -> (x mod modulus P = 0)%Z ->
  let kz := map toZ (limbs (sim_from F P (x / modulus P))) in
  let Z3 := zipZ (st P) (map toZ (mlimbs m)) (convZ (modulus_limbs P) kz) in
  zip_groups F P (mlimbs m) (convolve F (map fofZ (modulus_limbs P)) (limbs (sim_from F P (x / modulus P)))) = map toF3 Z3 /\
  ready P Z3 0 0 /\ (0 <= x / modulus P <= 31 * modulus P)%Z.
Proof.
  intros K (O & N & V & B) Hn Hx. cbn zeta. pose proof (f_mod P K) as Hm.
  assert (Hk : (0 <= x / modulus P <= 31 * modulus P)%Z).
  { split; [apply Z.div_pos; lia|]. apply Z.div_le_upper_bound; [lia|]. destruct O as (_ & _ & O). nia. }
  destruct (quotient_ok P _ K Hk) as (Lk & Bk & Nk & Tk). cbn zeta in *.
  set (kz := map toZ (limbs (sim_from F P (x / modulus P)))) in *.
  split; [|split; [|exact Hk]].
  - rewrite <- zip_F. f_equal; [now rewrite map_fofZ_toZ|].
    rewrite <- (map_fofZ_toZ (convolve F _ _)). f_equal. now apply rk_toZ.
  - destruct O as (Lm & O). assert (Lc : length (map toZ (mlimbs m)) = length (convZ (modulus_limbs P) kz)).
    { rewrite Lm. unfold convZ. rewrite map_length, seq_length. reflexivity. }
    pose proof (f_st P K). split; [|split; [|lia]].
    + apply gok_zip; try assumption; [|now apply rk_bound]. eapply mlimbs_186; try eassumption. split; eassumption.
    + rewrite gev_zip by exact Lc. rewrite convZ_number by (try exact Lk; apply (f_rlen P K)).
      rewrite (f_rnum P K), Nk. unfold st in *. rewrite N.
      pose proof (Z.div_mod x (modulus P) ltac:(lia)). lia.
Qed.
Theorem enforce_zero_represents P (m : simul F) x : facts P -> mrepresents P m x ->
  enforce_zero P m = if (prod_additions m <? 32)%Z && (x mod modulus P =? 0)%Z then Ok tt else Panic.
Proof.
  intros K R. unfold enforce_zero. destruct (Z.leb_spec 32 (prod_additions m)) as [H|H].
  { destruct (Z.ltb_spec (prod_additions m) 32); [lia|reflexivity]. }
  destruct (Z.ltb_spec (prod_additions m) 32); [|lia]. rewrite (minto_represents F P m x R). cbn [bind andb].
  destruct (Z.eqb_spec (x mod modulus P) 0) as [E|E]; cbn [negb]; [|reflexivity].
  destruct (multiple_ready P m x K R H E) as (E3 & Rd & Hk). cbn zeta in *. pose proof (f_mod P K).
  destruct (Z.ltb_spec (modulus P * 2 ^ 5) (x / modulus P)); [lia|].
  rewrite E3. now apply (check_groups_ok P _ K 0 0).
Qed.
End Zero.
