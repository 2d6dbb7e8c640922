(** Proofs about the text and byte encodings. *)
From Coq Require Import List NArith ZArith Bool Lia ZifyBool ZifyNat ZifyN.
From Verif Require Import Base UtilsModel UtilsProps SerModel SerSpec.
Import ListNotations.
Local Open Scope N_scope.
Ltac Zify.zify_post_hook ::= Z.div_mod_to_equations.

Notation is6 := (fun x => x < 64).

Lemma all64 (P : N -> bool) : forallb (fun n => P (N.of_nat n)) (seq 0 64) = true -> forall x, x < 64 -> P x = true.
Proof. intros H x Hx. rewrite forallb_forall in H. specialize (H (N.to_nat x)). rewrite N2Nat.id in H. apply H. apply in_seq. lia. Qed.
Lemma unsym_sym x : x < 64 -> unsym (sym x) = Some x.
Proof.
  intros H. pose proof (all64 (fun x => match unsym (sym x) with Some y => y =? x | None => false end) ltac:(vm_compute; reflexivity) x H) as K.
  cbv beta in K. destruct (unsym (sym x)); [|discriminate]. apply N.eqb_eq in K. now subst.
Qed.
Lemma sym_pad x : x < 64 -> sym x =? PAD = false.
Proof. intros H. apply negb_true_iff. exact (all64 (fun x => negb (sym x =? PAD)) ltac:(vm_compute; reflexivity) x H). Qed.
Lemma sym_unsym c x : unsym c = Some x -> x < 64 /\ sym x = c.
Proof.
  unfold unsym. intros H.
  repeat match goal with H : context [if ?b then _ else _] |- _ => destruct b eqn:?; try discriminate end; injection H as <-; unfold sym; split; try lia;
  repeat match goal with |- context [if ?b then _ else _] => destruct b eqn:?; try lia end.
Qed.
Lemma sym_alphabet x : x < 64 -> sym x = nth (N.to_nat x) alphabet 0.
Proof.
  assert (H : forallb (fun n => sym (N.of_nat n) =? nth n alphabet 0) (seq 0 64) = true) by (vm_compute; reflexivity).
  intros Hx. rewrite forallb_forall in H. specialize (H (N.to_nat x)). rewrite N2Nat.id in H. apply N.eqb_eq. apply H. apply in_seq. lia.
Qed.

Lemma three_ind {A} (P : list A -> Prop) :
  P [] -> (forall x, P [x]) -> (forall x y, P [x; y]) -> (forall x y z r, P r -> P (x :: y :: z :: r)) -> forall l, P l.
Proof. intros H0 H1 H2 H3. fix IH 1. intros [|x [|y [|z r]]]; [exact H0|apply H1|apply H2|apply H3, IH]. Qed.
Lemma four_ind {A} (P : list A -> Prop) :
  P [] -> (forall x, P [x]) -> (forall x y, P [x; y]) -> (forall x y z, P [x; y; z]) -> (forall x y z w r, P r -> P (x :: y :: z :: w :: r)) -> forall l, P l.
Proof. intros H0 H1 H2 H3 H4. fix IH 1. intros [|x [|y [|z [|w r]]]]; [exact H0|apply H1|apply H2|apply H3|apply H4, IH]. Qed.

Ltac fa H := repeat match type of H with Forall _ (_ :: _) => let H1 := fresh "Hx" in apply Forall_cons_iff in H as [H1 H] end.

Lemma sextets_6 b : Forall is_byte b -> Forall is6 (sextets b).
Proof.
  unfold is_byte. induction b as [|x|x y|x y z r IH] using three_ind; intros H; fa H; cbn [sextets]; repeat constructor; cbn beta in *; try lia. now apply IH.
Qed.
Lemma sextets_len b :
  (length (sextets b) = 4 * (length b / 3) + (match length b mod 3 with 0 => 0 | 1 => 2 | _ => 3 end))%nat.
Proof.
  induction b as [|x|x y|x y z r IH] using three_ind; try reflexivity.
  cbn [sextets length]. rewrite IH. replace (S (S (S (length r)))) with (length r + 1 * 3)%nat by lia. rewrite Nat.div_add, Nat.mod_add by lia. lia.
Qed.
Lemma octets_sextets b : Forall is_byte b -> octets (sextets b) = Ok b.
Proof.
  unfold is_byte. induction b as [|x|x y|x y z r IH] using three_ind; intros H; [reflexivity| | |]; fa H; cbn [sextets octets].
  - replace ((x mod 4 * 16) mod 16 =? 0) with true by lia. do 2 f_equal. lia.
  - replace ((y mod 16 * 4) mod 4 =? 0) with true by lia. do 2 f_equal; [lia|]. f_equal. lia.
  - rewrite IH by assumption. cbn [rmap]. f_equal. f_equal; [lia|]. f_equal; [lia|]. f_equal. lia.
Qed.
Lemma sextets_octets s : Forall is6 s -> forall b, octets s = Ok b -> Forall is_byte b /\ sextets b = s.
Proof.
  unfold is_byte. induction s as [|x|x y|x y z|x y z w r IH] using four_ind; intros H b E; fa H; cbn [octets] in E.
  - injection E as <-. split; [constructor|reflexivity].
  - discriminate.
  - destruct (y mod 16 =? 0) eqn:Q; [|discriminate]. injection E as <-. split; [repeat constructor; lia|]. cbn [sextets]. f_equal; [lia|]. f_equal. lia.
  - destruct (z mod 4 =? 0) eqn:Q; [|discriminate]. injection E as <-. split; [repeat constructor; lia|]. cbn [sextets]. f_equal; [lia|]. f_equal; [lia|]. f_equal. lia.
  - destruct (octets r) as [t| |] eqn:Q; try discriminate. cbn [rmap] in E. injection E as <-. destruct (IH H t eq_refl) as [B S]. split; [repeat constructor; try assumption; lia|].
    cbn [sextets]. rewrite S. f_equal; [lia|]. f_equal; [lia|]. f_equal; [lia|]. f_equal. lia.
Qed.
Lemma octets_no_panic s : octets s <> Panic.
Proof.
  induction s as [|x|x y|x y z|x y z w r IH] using four_ind; cbn [octets]; try discriminate.
  - now destruct (y mod 16 =? 0).
  - now destruct (z mod 4 =? 0).
  - destruct (octets r); [discriminate|discriminate|contradiction].
Qed.
Lemma symbols_no_panic t : symbols t <> Panic.
Proof. induction t as [|c r IH]; [discriminate|]. cbn. destruct (unsym c); [|discriminate]. destruct (symbols r); cbn; [discriminate|discriminate|contradiction]. Qed.
Lemma symbols_sym s : Forall is6 s -> symbols (map sym s) = Ok s.
Proof. induction s as [|x s IH]; intros H; [reflexivity|]. fa H. cbn. rewrite unsym_sym by assumption. now rewrite IH. Qed.
Lemma symbols_inv t : forall s, symbols t = Ok s -> Forall is6 s /\ t = map sym s.
Proof.
  induction t as [|c r IH]; intros s E; cbn in E; [injection E as <-; split; [constructor|reflexivity]|].
  destruct (unsym c) as [x|] eqn:U; [|discriminate]. destruct (symbols r) as [s'| |]; try discriminate. cbn in E. injection E as <-.
  destruct (IH s' eq_refl) as [F ->]. apply sym_unsym in U as [L <-]. split; [now constructor|reflexivity].
Qed.
Lemma split_text t : t = body t ++ tail t.
Proof. induction t as [|c r IH]; [reflexivity|]. cbn. destruct (c =? PAD); [reflexivity|]. cbn. now rewrite <- IH. Qed.
Lemma body_sym s p : Forall is6 s -> body (map sym s ++ repeat PAD p) = map sym s /\ tail (map sym s ++ repeat PAD p) = repeat PAD p.
Proof.
  induction s as [|x s IH]; intros H.
  - destruct p; [now split|]. cbn. now split.
  - fa H. cbn. rewrite sym_pad by assumption. destruct (IH H) as [-> ->]. now split.
Qed.
Lemma pads_repeat l : forallb (N.eqb PAD) l = true -> l = repeat PAD (length l).
Proof. induction l as [|x l IH]; intros H; [reflexivity|]. cbn [forallb] in H. apply andb_true_iff in H as [A B]. apply N.eqb_eq in A. cbn [repeat length]. rewrite <- A. f_equal. now apply IH. Qed.
Lemma repeat_pads p : forallb (N.eqb PAD) (repeat PAD p) = true.
Proof. induction p; [reflexivity|exact IHp]. Qed.

(** The padding a body needs. *)
Definition need (n : nat) : nat := (match n mod 4 with 2 => 2 | 3 => 1 | _ => 0 end)%nat.
Lemma need_enc b : (match length b mod 3 with 1 => 2 | 2 => 1 | _ => 0 end)%nat = need (length (sextets b)).
Proof.
  unfold need. rewrite sextets_len. assert (K : (length b mod 3 < 3)%nat) by (apply Nat.mod_upper_bound; lia).
  rewrite Nat.add_comm, (Nat.mul_comm 4), Nat.mod_add by lia. destruct (length b mod 3)%nat as [|[|[|k]]]; try reflexivity. lia.
Qed.
Lemma b64dec_ok t b : b64dec t = Ok b -> exists s p, Forall is6 s /\ t = map sym s ++ repeat PAD p /\ (p <= need (length s))%nat /\ octets s = Ok b.
Proof.
  unfold b64dec. intros H. destruct (forallb _ _ && _) eqn:Q; [|discriminate]. apply andb_true_iff in Q as [A B].
  destruct (symbols (body t)) as [s| |] eqn:Sy; try discriminate. cbn [bind] in H. destruct (symbols_inv _ _ Sy) as [F E].
  exists s, (length (tail t)). split; [exact F|]. split; [rewrite <- E, <- (pads_repeat _ A); apply split_text|]. split; [|exact H].
  apply Nat.leb_le in B. rewrite E, map_length in B. exact B.
Qed.
Lemma b64dec_text s p : Forall is6 s -> (p <= need (length s))%nat -> b64dec (map sym s ++ repeat PAD p) = octets s.
Proof.
  intros F L. unfold b64dec. destruct (body_sym s p F) as [-> ->]. rewrite repeat_pads, map_length, repeat_length.
  change (match length s mod 4 with 2 => 2 | 3 => 1 | _ => 0 end)%nat with (need (length s)). apply Nat.leb_le in L as ->. cbn [andb].
  now rewrite symbols_sym.
Qed.
Lemma b64enc_eq b : b64enc b = map sym (sextets b) ++ repeat PAD (need (length (sextets b))).
Proof. unfold b64enc. now rewrite need_enc. Qed.
Lemma b64_round b : Forall is_byte b -> b64dec (b64enc b) = Ok b.
Proof. intros H. rewrite b64enc_eq, b64dec_text; [now apply octets_sextets|now apply sextets_6|lia]. Qed.
Lemma b64_canon t b : b64dec t = Ok b -> Forall is_byte b /\ exists p, (p <= 2)%nat /\ b64enc b = t ++ repeat PAD p.
Proof.
  intros H. destruct (b64dec_ok _ _ H) as [s [p [F [-> [L O]]]]]. destruct (sextets_octets _ F _ O) as [B S]. split; [exact B|].
  exists (need (length s) - p)%nat. split; [unfold need; destruct (length s mod 4)%nat as [|[|[|[|k]]]]; lia|].
  rewrite b64enc_eq, S, <- app_assoc, <- repeat_app. do 3 f_equal. lia.
Qed.
Lemma b64dec_no_panic t : b64dec t <> Panic.
Proof. unfold b64dec. destruct (_ && _); [|discriminate]. destruct (symbols (body t)) as [s| |] eqn:E; [apply octets_no_panic|discriminate|now apply symbols_no_panic in E]. Qed.

(** ** The bits *)
Lemma be_app base a b : big_endian base (a ++ b) = big_endian base a * base ^ N.of_nat (length b) + big_endian base b.
Proof.
  revert a. unfold big_endian.
  assert (G : forall l x, fold_left (fun a d => a * base + d) l x = x * base ^ N.of_nat (length l) + fold_left (fun a d => a * base + d) l 0).
  { induction l as [|d l IH]; intros x; [cbn; lia|]. cbn [fold_left length]. rewrite (IH (x * base + d)), (IH (0 * base + d)).
    replace (N.of_nat (S (length l))) with (N.succ (N.of_nat (length l))) by lia. rewrite N.pow_succ_r'. ring. }
  intros a. rewrite fold_left_app. apply G.
Qed.
Lemma be_cons base x l : big_endian base (x :: l) = x * base ^ N.of_nat (length l) + big_endian base l.
Proof. change (x :: l) with ([x] ++ l). rewrite be_app. reflexivity. Qed.
Lemma sextets_bits b : Forall is_byte b -> exists z, z < 6 /\ 8 * N.of_nat (length b) + z = 6 * N.of_nat (length (sextets b)) /\
  big_endian 64 (sextets b) = big_endian 256 b * 2 ^ z.
Proof.
  unfold is_byte. induction b as [|x|x y|x y z r IH] using three_ind; intros H; fa H.
  - exists 0. repeat split.
  - exists 4. split; [lia|]. split; [reflexivity|]. cbn [sextets]. rewrite !be_cons. change (2 ^ 4) with 16. cbn [length]. change (64 ^ N.of_nat 1) with 64. change (64 ^ N.of_nat 0) with 1. change (256 ^ N.of_nat 0) with 1. change (big_endian 64 []) with 0. change (big_endian 256 []) with 0. lia.
  - exists 2. split; [lia|]. split; [reflexivity|]. cbn [sextets]. rewrite !be_cons. change (2 ^ 2) with 4. cbn [length]. change (64 ^ N.of_nat 2) with 4096. change (64 ^ N.of_nat 1) with 64. change (64 ^ N.of_nat 0) with 1. change (256 ^ N.of_nat 1) with 256. change (256 ^ N.of_nat 0) with 1. change (big_endian 64 []) with 0. change (big_endian 256 []) with 0. lia.
  - destruct (IH H) as [k [K [L E]]]. exists k. split; [exact K|]. split; [cbn [length sextets]; lia|].
    change (sextets (x :: y :: z :: r)) with ([x / 4; (x mod 4) * 16 + y / 16; (y mod 16) * 4 + z / 64; z mod 64] ++ sextets r).
    change (x :: y :: z :: r) with ([x; y; z] ++ r). rewrite !be_app, E.
    assert (P : 64 ^ N.of_nat (length (sextets r)) = 256 ^ N.of_nat (length r) * 2 ^ k).
    { change 64 with (2 ^ 6). change 256 with (2 ^ 8). rewrite <- !N.pow_mul_r, <- N.pow_add_r. f_equal. lia. }
    rewrite P. assert (Q : big_endian 64 [x / 4; (x mod 4) * 16 + y / 16; (y mod 16) * 4 + z / 64; z mod 64] = big_endian 256 [x; y; z]).
    { unfold big_endian. cbn [fold_left]. lia. }
    rewrite Q. ring.
Qed.
Lemma spelled b : Forall is_byte b -> spells (b64enc b) b.
Proof.
  intros H. exists (sextets b), (need (length (sextets b))). pose proof (sextets_6 b H) as F. split; [|split; [|split; [exact F|split]]].
  - rewrite b64enc_eq. unfold PAD. f_equal. apply map_ext_in. intros x Hx. apply sym_alphabet. rewrite Forall_forall in F. now apply F.
  - unfold need. destruct (_ mod 4)%nat as [|[|[|[|k]]]]; lia.
  - rewrite b64enc_eq, app_length, map_length, repeat_length. unfold need. set (n := length (sextets b)). assert (G : (n mod 4 <> 1)%nat).
    { unfold n. rewrite sextets_len, Nat.add_comm, (Nat.mul_comm 4), Nat.mod_add by lia. destruct (length b mod 3)%nat as [|[|k]]; discriminate. }
    assert (U : (n mod 4 < 4)%nat) by (apply Nat.mod_upper_bound; lia). rewrite (Nat.div_mod n 4) at 1 by lia. destruct (n mod 4)%nat as [|[|[|[|k]]]]; try lia.
  - now apply sextets_bits.
Qed.

(** ** Decimal *)
Lemma decimal_spec f : forall n, n < 10 ^ N.of_nat f -> (0 < f)%nat -> numeral (decimal_fuel f n) n.
Proof.
  induction f as [|f IH]; intros n H L; [lia|]. cbn [decimal_fuel]. destruct (n <? 10) eqn:Q.
  - split; [discriminate|]. split; [constructor; [unfold digit; lia|constructor]|]. cbn. lia.
  - replace (N.of_nat (S f)) with (N.succ (N.of_nat f)) in H by lia. rewrite N.pow_succ_r' in H. destruct f as [|f]; [cbn in H; lia|].
    destruct (IH (n / 10)) as [A [B C]]; [apply N.div_lt_upper_bound; lia|lia|]. split; [intros E; apply app_eq_nil in E as [_ E]; discriminate|]. split.
    + apply Forall_app. split; [exact B|]. constructor; [unfold digit; lia|constructor].
    + rewrite map_app, be_app, C. cbn. lia.
Qed.
Lemma be_acc base l : forall x, fold_left (fun a d => a * base + d) l x = x * base ^ N.of_nat (length l) + big_endian base l.
Proof.
  unfold big_endian. induction l as [|d l IH]; intros x; [cbn; lia|]. cbn [fold_left length]. rewrite (IH (x * base + d)), (IH (0 * base + d)).
  replace (N.of_nat (S (length l))) with (N.succ (N.of_nat (length l))) by lia. rewrite N.pow_succ_r'. ring.
Qed.
Lemma digits_from_iff t : forall acc n, acc < 2 ^ 64 ->
  (digits_from acc t = Ok n <-> Forall digit t /\ fold_left (fun a d => a * 10 + d) (map (fun c => c - 48) t) acc = n /\ n < 2 ^ 64).
Proof.
  induction t as [|c r IH]; intros acc n Ha.
  - cbn. split; [intros E; injection E as <-; repeat split; [constructor|exact Ha]|intros [_ [-> _]]; reflexivity].
  - cbn [digits_from map fold_left]. destruct ((48 <=? c) && (c <=? 57)) eqn:Q.
    + destruct (acc * 10 + (c - 48) <? 2 ^ 64) eqn:R.
      * rewrite IH by lia. split; [intros [A B]; split; [constructor; [unfold digit; lia|exact A]|exact B]|intros [A B]; split; [now apply Forall_inv_tail in A|exact B]].
      * split; [discriminate|]. intros [_ [B C]]. rewrite be_acc in B. exfalso.
        assert (1 <= 10 ^ N.of_nat (length (map (fun c => c - 48) r))) by (pose proof (N.pow_nonzero 10 (N.of_nat (length (map (fun c => c - 48) r)))); lia). nia.
    + split; [discriminate|]. intros [A _]. apply Forall_inv in A. unfold digit in A. lia.
Qed.
Lemma digits_no_panic t : forall acc, digits_from acc t <> Panic.
Proof. induction t as [|c r IH]; intros acc; [discriminate|]. cbn [digits_from]. destruct (_ && _); [|discriminate]. destruct (_ <? _); [apply IH|discriminate]. Qed.
Lemma parse_iff t n : parse_u64 t = Ok n <-> exists ds, (t = ds \/ t = 43 :: ds) /\ numeral ds n /\ n < 2 ^ 64.
Proof.
  assert (D : forall ds, ds <> [] -> (digits_from 0 ds = Ok n <-> numeral ds n /\ n < 2 ^ 64)).
  { intros ds H. rewrite digits_from_iff by reflexivity. unfold numeral, big_endian. tauto. }
  split.
  - destruct t as [|c r]; [discriminate|]. cbn [parse_u64]. destruct (c =? 43) eqn:Q.
    + apply N.eqb_eq in Q as ->. destruct r as [|d r]; [discriminate|]. rewrite D by discriminate. intros H. exists (d :: r). tauto.
    + rewrite D by discriminate. intros H. exists (c :: r). tauto.
  - intros [ds [[-> | ->] [H L]]]; pose proof H as [E [F _]].
    + destruct ds as [|c r]; [contradiction|]. cbn [parse_u64]. replace (c =? 43) with false by (apply Forall_inv in F; unfold digit in F; lia). now apply D.
    + cbn [parse_u64]. change (43 =? 43) with true. destruct ds as [|c r]; [contradiction|]. now apply D.
Qed.

(** ** Formats *)
Lemma u8s_round b : Forall is_byte b -> u8s (map VNum b) = Ok b.
Proof. unfold is_byte. induction b as [|x b IH]; intros H; [reflexivity|]. fa H. cbn [map u8s]. replace (x <? 256) with true by lia. now rewrite IH. Qed.
Lemma u8s_inv l : forall b, u8s l = Ok b -> Forall is_byte b /\ l = map VNum b.
Proof.
  unfold is_byte. induction l as [|v l IH]; intros b E; [injection E as <-; split; [constructor|reflexivity]|]. cbn [u8s] in E. destruct v; try discriminate.
  destruct (n <? 256) eqn:Q; [|discriminate]. destruct (u8s l) as [t| |]; try discriminate. injection E as <-. destruct (IH t eq_refl) as [F ->]. split; [constructor; [lia|exact F]|reflexivity].
Qed.
Lemma u8s_no_panic l : u8s l <> Panic.
Proof. induction l as [|v l IH]; [discriminate|]. cbn [u8s]. destruct v; try discriminate. destruct (n <? 256); [|discriminate]. destruct (u8s l); [discriminate|discriminate|contradiction]. Qed.
Lemma read_bytes_no_panic f v : read_bytes f v <> Panic.
Proof. destruct f, v; cbn; try discriminate; try apply b64dec_no_panic. apply u8s_no_panic. Qed.

