(** Proofs about histories of transfers. *)
From Coq Require Import List NArith ZArith Bool Permutation Lia Field Ring.
From Verif Require Import Base Field UtilsModel XfrModel XfrSpec XfrProofs XhistSpec XhistCore XhistFind.
Import ListNotations.
Local Open Scope Z_scope.

(** Sums by type and by any property of the type. *)
Definition psum (P : N -> bool) (l : list (N * N)) : Z :=
  zsum (map (fun at_ => if P (snd at_) then Z.of_N (fst at_) else 0) l).
Lemma zsum_cons' a l : zsum (a :: l) = (a + zsum l)%Z. Proof. reflexivity. Qed.
Lemma zsum_single (D : list N) (f : N -> Z) a u : NoDup D -> In u D ->
  zsum (map (fun t => (if N.eqb u t then a else 0) + f t) D) = (a + zsum (map f D))%Z.
Proof.
  induction D as [|x D IH]; intros ND Hin; [destruct Hin|].
  inversion ND as [|? ? Hn ND']; subst. cbn [map]. rewrite !zsum_cons'.
  destruct Hin as [->|Hin].
  - rewrite N.eqb_refl.
    assert (H : zsum (map (fun t => (if N.eqb u t then a else 0) + f t) D) = zsum (map f D)).
    { clear -Hn. induction D as [|y D IH]; [reflexivity|]. cbn [map]. rewrite !zsum_cons'.
      destruct (N.eqb_spec u y) as [->|]; [exfalso; apply Hn; now left|].
      rewrite IH; [lia|]. intros H. apply Hn. now right. }
    rewrite H. lia.
  - destruct (N.eqb_spec u x) as [->|]; [contradiction|]. rewrite IH by assumption. lia.
Qed.
Lemma zsum_zero (D : list N) (f : N -> Z) a u : ~ In u D ->
  zsum (map (fun t => (if N.eqb u t then a else 0) + f t) D) = zsum (map f D).
Proof.
  induction D as [|x D IH]; intros Hn; [reflexivity|]. cbn [map]. rewrite !zsum_cons'.
  destruct (N.eqb_spec u x) as [->|]; [exfalso; apply Hn; now left|].
  rewrite IH; [lia|]. intros H. apply Hn. now right.
Qed.
Lemma psum_total (P : N -> bool) (D : list N) l : NoDup D -> incl (map snd l) D ->
  psum P l = zsum (map (fun t => total t l) (filter P D)).
Proof.
  intros ND. induction l as [|[a u] l IH]; intros Hi.
  - unfold psum. cbn. clear. induction (filter P D); cbn; [reflexivity|]. unfold zsum in IHl. lia.
  - unfold psum in *. cbn [map fst snd]. rewrite zsum_cons', IH by (intros x Hx; apply Hi; now right).
    cbn [total]. destruct (P u) eqn:Pu.
    + rewrite zsum_single; [reflexivity|now apply NoDup_filter|].
      apply filter_In. split; [apply Hi; now left|assumption].
    + rewrite zsum_zero; [lia|]. intros H. apply filter_In in H. destruct H. congruence.
Qed.
Lemma psum_conserved P a b : conserved a b -> psum P a = psum P b.
Proof.
  intros H. set (D := nodup N.eq_dec (map snd (a ++ b))).
  rewrite (psum_total P D a), (psum_total P D b); try apply NoDup_nodup.
  - f_equal. apply map_ext. intros t. apply H.
  - intros x Hx. apply nodup_In. rewrite map_app. apply in_or_app. now right.
  - intros x Hx. apply nodup_In. rewrite map_app. apply in_or_app. now left.
Qed.

Lemma app_inj {A} (a b c d : list A) : length a = length c -> a ++ b = c ++ d -> a = c /\ b = d.
Proof.
  revert c. induction a as [|x a IH]; intros [|y c] L H; try discriminate L; [split; auto|].
  cbn in H. injection H as -> H. destruct (IH c) as [-> ->]; auto.
Qed.
Section Proofs.
Context (E : pgroup) (O : oracles E) (sc : N -> PF E).
Add Field PFp : (f_th (PF E)).
Notation known := (known E). Notation k_bar := (k_bar E). Notation k_amount := (k_amount E). Notation k_type := (k_type E).
Notation is_opened := (is_opened E sc). Notation worth := (worth E). Notation is_typed := (is_typed E). Notation below := (below E).

Lemma worth_app t a b : worth t (a ++ b) = (worth t a + worth t b)%Z.
Proof. unfold worth, held. rewrite !map_app. apply zsum_app. Qed.
Lemma worth_cons t a b : worth t (a :: b) = (worth t [a] + worth t b)%Z.
Proof. apply (worth_app t [a] b). Qed.
Lemma worth_perm t a b : Permutation a b -> worth t a = worth t b.
Proof.
  induction 1 as [|x a b _ IH|x y a|a b c _ IH1 _ IH2]; [reflexivity| | |congruence].
  - rewrite (worth_cons t x a), (worth_cons t x b). lia.
  - rewrite (worth_cons t y (x :: a)), (worth_cons t x a), (worth_cons t x (y :: a)), (worth_cons t y a). lia.
Qed.
Lemma zsum_ext {A} (f g : A -> Z) l : (forall a, In a l -> f a = g a) -> zsum (map f l) = zsum (map g l).
Proof. intros H. now rewrite (map_ext_in _ _ _ H). Qed.

(** All of one type. *)
Lemma worth_same (tau : PF E) l t : (forall k, In k l -> fst (k_type k) = tau) ->
  worth t l = if f_dec tau t then zsum (map fst (map k_amount l)) else 0.
Proof.
  intros H. unfold worth, held. rewrite !map_map. unfold view. cbn [fst snd]. destruct (f_dec tau t) as [e|e].
  - apply zsum_ext. intros k Hk. destruct (f_dec (fst (k_type k)) t) as [e'|e']; [reflexivity|].
    exfalso. apply e'. rewrite (H k Hk). exact e.
  - rewrite (zsum_ext _ (fun _ => 0)).
    + clear. induction l; [reflexivity|]. cbn. exact IHl.
    + intros k Hk. destruct (f_dec (fst (k_type k)) t) as [e'|e']; [|reflexivity]. exfalso. apply e. now rewrite <- (H k Hk).
Qed.
Lemma same_le l l' : all_same (map fst (map k_type l ++ map k_type l')) ->
  zsum (map fst (map k_amount l')) <= zsum (map fst (map k_amount l)) -> forall t, worth t l' <= worth t l.
Proof.
  intros H Hle t. destruct l' as [|k0 l''] eqn:El'.
  - cbn in Hle. destruct l as [|k1 l1] eqn:El; [lia|].
    rewrite (worth_same (fst (k_type k1)) (k1 :: l1)).
    + unfold worth, held at 1. cbn [map]. change (zsum []) with 0. destruct (f_dec _ _); [exact Hle|lia].
    + intros k Hk. apply H; rewrite map_app; apply in_or_app; left; rewrite map_map; apply in_map_iff; [exists k|exists k1]; split; auto. now left.
  - rewrite <- El' in *. assert (I0 : In k0 l') by (subst; now left).
    rewrite (worth_same (fst (k_type k0)) l), (worth_same (fst (k_type k0)) l').
    + destruct (f_dec _ _); lia.
    + intros k Hk. apply H; rewrite map_app; apply in_or_app; right; rewrite map_map; apply in_map_iff; [exists k|exists k0]; auto.
    + intros k Hk. apply H; rewrite map_app; apply in_or_app; [left|right]; rewrite map_map; apply in_map_iff; [exists k|exists k0]; auto.
Qed.

Lemma opened_types l : Forall is_opened l -> Forall2 (fun r o => opens_type sc (b_type r) o) (map k_bar l) (map k_type l).
Proof. induction 1 as [|k l [_ H] _ IH]; cbn; constructor; auto. Qed.
Lemma plain_value k a : is_opened k -> b_amount (k_bar k) = APlain a -> fst (k_amount k) = Z.of_N a.
Proof. intros [H _] Ha. rewrite Ha in H. cbn in H. now rewrite H. Qed.
Lemma plain_below k a : is_opened k -> is_typed (k_bar k) -> b_amount (k_bar k) = APlain a -> below (2 ^ 64) k.
Proof.
  intros H Ht Ha. specialize (Ht a Ha). unfold is_u64 in Ht. unfold below. rewrite (plain_value _ _ H Ha).
  change (2 ^ 64) with (Z.of_N (2 ^ 64)). lia.
Qed.
Lemma plain_type k t : is_opened k -> b_type (k_bar k) = TPlain t -> fst (k_type k) = sc t.
Proof. intros [_ H] Ht. rewrite Ht in H. exact (proj1 H). Qed.
Lemma transparent_worth t l p : Forall is_opened l -> Forall2 transparent (map k_bar l) p ->
  worth t l = psum (fun u => feqb (sc u) t) p.
Proof.
  intros Ho. revert p. induction Ho as [|k l Hk Ho IH]; intros p Hp; cbn in Hp; inversion Hp as [|? [a u] ? p' [H1 H2] H3]; subst; [reflexivity|].
  rewrite worth_cons. unfold psum. cbn [map fst snd] in *. rewrite zsum_cons'. fold (psum (fun u => feqb (sc u) t) p'). rewrite (IH _ H3).
  f_equal. unfold worth, held, view. cbn [map fst snd]. rewrite zsum_cons'. rewrite (plain_type _ _ Hk H2), (plain_value _ _ Hk H1). unfold feqb.
  change (zsum []) with 0. destruct (f_dec (sc u) t); lia.
Qed.
Lemma plain_sum l ai : Forall is_opened l -> Forall2 (fun r a => b_amount r = APlain a) (map k_bar l) ai ->
  zsum (map fst (map k_amount l)) = zsum (map Z.of_N ai).
Proof.
  intros Ho. revert ai. induction Ho as [|k l Hk Ho IH]; intros p Hp; cbn in Hp; inversion Hp as [|? a ? p' H1 H3]; subst; [reflexivity|].
  cbn [map]. rewrite !zsum_cons', (IH _ H3), (plain_value _ _ Hk H1). reflexivity.
Qed.
Lemma all_plain_below l : Forall is_opened l -> Forall (fun k => is_typed (k_bar k)) l ->
  Forall (fun r => exists a, b_amount r = APlain a) (map k_bar l) -> Forall (below (2 ^ 64)) l.
Proof.
  intros Ho Ht Hp. rewrite Forall_forall in *. intros k Hk. destruct (Hp (k_bar k) (in_map _ _ _ Hk)) as [a Ha].
  apply (plain_below k a); auto.
Qed.
Lemma F2_left {A B} (R : A -> B -> Prop) (P : A -> Prop) l m : (forall a b, R a b -> P a) -> Forall2 R l m -> Forall P l.
Proof. intros H. induction 1; constructor; eauto. Qed.

(** Two openings of the same commitments are equal or give a relation. *)
Lemma relation_or (l : list (PF E * PF E)) :
  (forall ab, In ab l -> madd (smul (fst ab) (gB E)) (smul (snd ab) (gBb E)) = m0) ->
  (exists ab, In ab l /\ dlog_relation E ab) \/ forall ab, In ab l -> fst ab = f0.
Proof.
  intros H. destruct (Exists_dec (fun ab : PF E * PF E => fst ab <> f0) l) as [Hx|Hall].
  { intros ab. destruct (f_dec (fst ab) f0) as [e|e]; [right; intros Hn; contradiction|left; assumption]. }
  - left. apply Exists_exists in Hx. destruct Hx as [ab [Hin Hne]]. exists ab. split; [exact Hin|]. split; auto.
  - right. intros ab Hin. destruct (f_dec (fst ab) f0) as [e|e]; [assumption|]. exfalso. apply Hall, Exists_exists. exists ab. auto.
Qed.
Lemma compare_amounts q xs ys : char_ge (PF E) q ->
  Forall2 (fun x y => pedersen E (fst x) (snd x) = pedersen E (fst y) (snd y) /\ 0 <= fst x < q /\ 0 <= fst y < q) xs ys ->
  (exists ab, In ab (amount_diffs E xs ys) /\ dlog_relation E ab) \/ map fst xs = map fst ys.
Proof.
  intros Hq H. destruct (relation_or (amount_diffs E xs ys)) as [R|Z0]; [|left; exact R|right].
  - induction H as [|x y xs ys [H1 _] H IH]; intros ab Hin; [destruct Hin|]. destruct Hin as [<-|Hin]; [|auto]. cbn [fst snd]. now apply relation_from_equal.
  - induction H as [|x y xs ys [H1 [H2 H3]] H IH]; [reflexivity|]. cbn [map]. f_equal.
    + specialize (Z0 _ (or_introl eq_refl)). cbn [fst] in Z0. rewrite fofZ_sub in Z0. apply (proj1 (fsub_0 _ _ _)) in Z0.
      apply (fofZ_inj (PF E) q) in Z0; [exact Z0|exact Hq|lia].
    + apply IH. intros ab Hin. apply Z0. now right.
Qed.
Lemma compare_types (xs ys : list (PF E * PF E)) :
  Forall2 (fun x y => madd (smul (fst x) (gB E)) (smul (snd x) (gBb E)) = madd (smul (fst y) (gB E)) (smul (snd y) (gBb E))) xs ys ->
  (exists ab, In ab (type_diffs E xs ys) /\ dlog_relation E ab) \/ map fst xs = map fst ys.
Proof.
  intros H. destruct (relation_or (type_diffs E xs ys)) as [R|Z0]; [|left; exact R|right].
  - induction H as [|x y xs ys H1 H IH]; intros ab Hin; [destruct Hin|]. destruct Hin as [<-|Hin]; [|auto]. cbn [fst snd].
    apply msub_0 in H1. rewrite <- H1. module_eq.
  - induction H as [|x y xs ys H1 H IH]; [reflexivity|]. cbn [map]. f_equal.
    + specialize (Z0 _ (or_introl eq_refl)). cbn [fst] in Z0. now apply (proj1 (fsub_0 _ _ _)) in Z0.
    + apply IH. intros ab Hin. apply Z0. now right.
Qed.

(** The limbs of the created records read off a range proof. *)
Lemma limbs_read ins outs p cs ex : extract_value_commitments E O ins outs p = Ok cs ->
  Forall2 (fun c vr => decompress E c = Some (pedersen E (fst vr) (snd vr)) /\ 0 <= fst vr < 2 ^ 32) cs ex ->
  Forall is_typed outs ->
  Forall2 (fun r o => opens (b_amount r) o /\ limbs_in (2 ^ 32) o) outs (all_limbs E ex outs).
Proof.
  intros Hc Hf HT.
  assert (K : forall i r, nth_error outs i = Some r -> opens (b_amount r) (read_limbs E ex i r) /\ limbs_in (2 ^ 32) (read_limbs E ex i r)).
  { intros i r Hi. unfold read_limbs. destruct (b_amount r) as [lo hi|x] eqn:Ea.
    - destruct (range_positions E O _ _ _ _ _ _ Hc Hi) as [c [Hl [H1 H2]]].
      pose proof (F2_nth _ _ _ _ _ (0, f0) Hf H1) as [G1 B1]. pose proof (F2_nth _ _ _ _ _ (0, f0) Hf H2) as [G2 B2].
      rewrite decompress_compress in G1, G2. rewrite Ea in Hl. cbn in Hl. apply bind_ok in Hl. destruct Hl as [l [Hl1 Hl]].
      apply bind_ok in Hl. destruct Hl as [h [Hh1 Hl]]. injection Hl as <-. cbn [fst snd] in G1, G2.
      unfold opt in *. destruct (decompress E lo) as [l'|] eqn:El; [|discriminate]. destruct (decompress E hi) as [h'|] eqn:Eh; [|discriminate].
      injection Hl1 as ->. injection Hh1 as ->. split; [|split; assumption]. cbn [opens op_lo op_hi op_rlo op_rhi]. rewrite El, Eh. split; assumption.
    - assert (Hx : is_u64 x) by (rewrite Forall_forall in HT; apply (HT r); [eapply nth_error_In; eauto|exact Ea]). unfold is_u64 in Hx. split; [cbn; tauto|].
      split; cbn [op_lo op_hi]; [apply Z.mod_pos_bound; lia|]. split; [apply Z.div_pos; lia|].
      apply Z.div_lt_upper_bound; [lia|]. change (2 ^ 32 * 2 ^ 32) with (Z.of_N (2 ^ 64)). lia. }
  unfold all_limbs.
  assert (G : forall s l, (forall i r, nth_error l i = Some r -> opens (b_amount r) (read_limbs E ex (s + i) r) /\ limbs_in (2 ^ 32) (read_limbs E ex (s + i) r)) ->
    Forall2 (fun r o => opens (b_amount r) o /\ limbs_in (2 ^ 32) o) l (map (fun ir => read_limbs E ex (fst ir) (snd ir)) (combine (seq s (length l)) l))).
  { intros s l. revert s. induction l as [|r l IH]; intros s H; cbn; constructor.
    - specialize (H 0%nat r eq_refl). now rewrite Nat.add_0_r in H.
    - apply IH. intros i r' Hi. replace (S s + i)%nat with (s + S i)%nat by lia. apply H. exact Hi. }
  exact (G 0%nat outs K).
Qed.

(** The same range statement with the consumed amounts as wholes. *)
Definition lone (k : known) : bar E :=
  mkBar (AConf (compress E (pedersen E (fst (k_amount k)) (snd (k_amount k)))) (compress E m0)) (TPlain 0%N) 0%N.
Definition lone_pair (k : known) : PG E * PG E := (pedersen E (fst (k_amount k)) (snd (k_amount k)), m0).
Lemma lone_limbs l : mapM (fun r => limb_commitments E (b_amount r)) (map lone l)
  = Ok (map lone_pair l).
Proof. induction l as [|k l IH]; [reflexivity|]. cbn [map mapM]. rewrite IH. cbn. rewrite !decompress_compress. reflexivity. Qed.
Lemma msum_cons' (a : PG E) l : msum (a :: l) = madd a (msum l). Proof. reflexivity. Qed.
Lemma whole_sum l ci : Forall is_opened l -> mapM (fun r => limb_commitments E (b_amount r)) (map k_bar l) = Ok ci ->
  madd (msum (map fst ci)) (smul (pow2_32 E) (msum (map snd ci)))
  = madd (msum (map fst (map lone_pair l)))
         (smul (pow2_32 E) (msum (map snd (map lone_pair l)))).
Proof.
  intros Ho. revert ci. induction Ho as [|k l [Hk _] Ho IH]; intros ci Hc.
  - cbn in Hc. injection Hc as <-. reflexivity.
  - cbn [map mapM] in Hc. apply bind_ok in Hc. destruct Hc as [c [Hc Hr]]. apply rmap_ok in Hr. destruct Hr as [ci' [Hr <-]].
    specialize (IH _ Hr). pose proof (whole_limbs E _ _ _ Hk Hc) as W. cbn [map]. unfold lone_pair at 1 3. cbn [fst snd]. rewrite !msum_cons', <- W.
    transitivity (madd (madd (fst c) (smul (pow2_32 E) (snd c))) (madd (msum (map fst ci')) (smul (pow2_32 E) (msum (map snd ci'))))).
    + generalize (fst c) (snd c) (msum (map fst ci')) (msum (map snd ci')) (pow2_32 E). intros. module_eq.
    + rewrite IH. generalize (msum (map fst (map lone_pair l))).
      generalize (msum (map snd (map lone_pair l))).
      generalize (fst c) (snd c) (pow2_32 E). intros. module_eq.
Qed.
Lemma lone_range l outs p cs : Forall is_opened l -> extract_value_commitments E O (map k_bar l) outs p = Ok cs ->
  extract_value_commitments E O (map lone l) outs p = Ok cs.
Proof.
  intros Ho Hx. unfold extract_value_commitments in *.
  apply bind_ok in Hx. destruct Hx as [ci [Hci Hx]]. rewrite lone_limbs. cbn [bind].
  apply bind_ok in Hx. destruct Hx as [co [Hco Hx]]. rewrite Hco. cbn [bind].
  destruct (opt (decompress E (xrp_low E O p))) as [pl| |]; cbn [bind] in *; try discriminate.
  destruct (opt (decompress E (xrp_high E O p))) as [ph| |]; cbn [bind] in *; try discriminate.
  pose proof (whole_sum l ci Ho Hci) as W. revert W Hx.
  generalize (msum (map fst (map lone_pair l))).
  generalize (msum (map snd (map lone_pair l))).
  generalize (msum (map fst ci)) (msum (map snd ci)) (msum (map fst co)) (msum (map snd co)). intros a b c d e f W Hx.
  assert (D : madd (msub f c) (smul (pow2_32 E) (msub e d)) = madd (msub a c) (smul (pow2_32 E) (msub b d))).
  { transitivity (msub (madd f (smul (pow2_32 E) e)) (madd c (smul (pow2_32 E) d))).
    - clear W. generalize (pow2_32 E). intros. module_eq.
    - rewrite <- W. clear W. generalize (pow2_32 E). intros. module_eq. }
  rewrite D. exact Hx.
Qed.

Notation applied := (applied E O).
(** Transparent transfers only: exact, and nothing is assumed about the commitments. *)
Lemma plain_history counts q issued ts un :
  history E O sc counts q issued ts un -> (forall a, In a ts -> x_proof E O (t_body E O a) = NoProof E O) ->
  Forall is_opened un /\ Forall (fun k => is_typed (k_bar k)) un /\ forall t, worth t un = worth t issued.
Proof.
  induction 1 as [|issued ts un k H IH Ok_ Tk Lk|issued ts un rest batch b kin kout H IH Hp Hv Hb Hm Hi Ho Li Lo Oo To Bo]; intros HP.
  - repeat split; constructor.
  - destruct (IH HP) as [A [B D]]. repeat split; try constructor; auto.
    intros t. rewrite (worth_cons t k un), (worth_cons t k issued). specialize (D t). lia.
  - destruct (IH (fun a h => HP a (or_intror h))) as [A [B D]].
    assert (A' : Forall is_opened (kin ++ rest)) by (rewrite Forall_forall in *; intros k Hk; apply A; now apply (Permutation_in k (Permutation_sym Hp))).
    assert (B' : Forall (fun k => is_typed (k_bar k)) (kin ++ rest)) by (rewrite Forall_forall in *; intros k Hk; apply B; now apply (Permutation_in k (Permutation_sym Hp))).
    apply Forall_app in A', B'. destruct A' as [Ai Ar], B' as [Bi Br].
    repeat split; try (apply Forall_app; tauto). intros t. rewrite worth_app, <- (D t), (worth_perm t un _ Hp), worth_app. f_equal.
    pose proof (HP _ (or_introl eq_refl)) as Ep. cbn in Ep.
    destruct (plain_in_batch_lemma E O sc batch b Hv Hb Ep) as [pi [po [P1 [P2 P3]]]].
    + rewrite Hi, Ho, !map_length. lia.
    + rewrite Hi, Ho. intros r a Hr. apply in_app_or in Hr. rewrite !Forall_forall in *. destruct Hr as [Hr|Hr]; apply in_map_iff in Hr; destruct Hr as [k [<- Hk]]; intros Hka; [exact (Bi k Hk a Hka)|exact (To k Hk a Hka)].
    + rewrite Hi in P1. rewrite Ho in P2. rewrite (transparent_worth t kin pi Ai P1), (transparent_worth t kout po Oo P2), (psum_conserved _ _ _ P3). reflexivity.
Qed.


Context (ext : RP E O -> list (CP E) -> list (Z * PF E)) (aext : AP E O -> list (PG E) -> PF E * list (PF E)) (mext : mix_ext E O).
Notation found a := (exists ab, In ab (pairs E O sc ext aext mext a) /\ dlog_relation E ab).

Lemma step_range q batch b p kin kout :
  char_ge (PF E) q -> 2 ^ 200 <= q -> range_extractor E O ext ->
  verify_bodies E O sc batch = Ok tt -> In b batch ->
  (x_proof E O b = ConfAmount E O p \/ exists ap, x_proof E O b = ConfAll E O p ap) ->
  x_in E O b = map k_bar kin -> x_out E O b = map k_bar kout ->
  Z.of_nat (length kin) < 2 ^ 60 -> Z.of_nat (length kout) < 2 ^ 60 ->
  Forall is_opened kin -> Forall (below (2 ^ 64)) kin ->
  Forall is_opened kout -> Forall (fun k => is_typed (k_bar k)) kout -> Forall (below q) kout ->
  (Forall (below (2 ^ 64)) kout /\ zsum (map fst (map k_amount kout)) <= zsum (map fst (map k_amount kin)))
  \/ exists ab, In ab (pairs_range E O ext (mkApplied E O b kin kout) p) /\ dlog_relation E ab.
Proof.
  intros Hq Hq2 Hx Hv Hb Hp Hi Ho Li Lo Oi Bi Oo To Bo.
  destruct (ranges_of E O sc ext batch b p Hx Hv Hb Hp) as [cs [Hc Hf]].
  unfold pairs_range. cbn [t_body t_in t_out]. assert (Ex : range_openings E O ext b p = ext (xrp E O p) cs) by (unfold range_openings; now rewrite Hc).
  rewrite Ex. set (ex := ext (xrp E O p) cs) in *. set (limbs := all_limbs E ex (x_out E O b)).
  assert (HT : Forall is_typed (x_out E O b)) by (rewrite Ho; apply Forall_map; exact To).
  pose proof (limbs_read _ _ _ _ _ Hc Hf HT) as HL. fold limbs in HL.
  assert (HL1 : Forall2 (fun r o => opens (b_amount r) o) (x_out E O b) limbs) by (revert HL; apply Forall2_impl; tauto).
  assert (HL2 : Forall (limbs_in (2 ^ 32)) limbs) by (clear -HL; induction HL; constructor; tauto).
  rewrite Hi in Hc. apply lone_range in Hc; [|exact Oi].
  destruct (range_core_whole E O q (map lone kin) (x_out E O b) p cs ex (map (single E) (map k_amount kin)) limbs) as [[_ S]|[ab [R1 R2]]]; auto.
  - now rewrite map_length.
  - now rewrite Ho, map_length.
  - clear. induction kin as [|k l IH]; cbn [map]; constructor; [|exact IH]. cbn. rewrite !decompress_compress. split; [reflexivity|]. now rewrite pedersen_0.
  - apply Forall_map, Forall_map. revert Bi. apply Forall_impl. intros k Hk. unfold below in Hk. unfold op_value, single. cbn [op_lo op_hi]. lia.
  - revert HL2. apply Forall_impl. intros o [H1 H2]. split; lia.
  - assert (SV : zsum (map op_value (map (single E) (map k_amount kin))) = zsum (map fst (map k_amount kin))).
    { rewrite !map_map. apply zsum_ext. intros k _. unfold op_value, single. cbn [op_lo op_hi]. lia. }
    rewrite SV in S.
    assert (C : Forall2 (fun x y => pedersen E (fst x) (snd x) = pedersen E (fst y) (snd y) /\ 0 <= fst x < q /\ 0 <= fst y < q) (map k_amount kout) (map (whole E) limbs)).
    { rewrite Ho in HL. clear -HL Oo Bo Hq2. revert HL. generalize limbs as m. induction Oo as [|k l [Hk _] Oo IH]; intros m HL; cbn [map] in HL; inversion HL as [|? o ? m' [H1 [H2 H3]] H4]; subst; cbn [map]; constructor.
      - inversion Bo as [|? ? Bk Bl]; subst. split; [|split; [exact Bk|unfold whole, op_value; cbn [fst]; lia]].
        apply (whole_opens E) in H1. destruct (b_amount (k_bar k)) as [lo hi|x]; cbn in Hk, H1.
        + destruct Hk as [u [v [K1 [K2 K3]]]], H1 as [u' [v' [L1 [L2 L3]]]]. rewrite K1 in L1. rewrite K2 in L2. injection L1 as <-. injection L2 as <-. now rewrite <- K3.
        + now rewrite Hk, H1.
      - inversion Bo; subst. apply IH; assumption. }
    destruct (compare_amounts q _ _ Hq C) as [[ab [R1 R2]]|EQ].
    + right. exists ab. split; [apply in_or_app; now right|exact R2].
    + left. assert (E2 : map fst (map (whole E) limbs) = map op_value limbs) by (rewrite map_map; reflexivity).
      rewrite E2 in EQ. split; [|rewrite EQ; lia].
      assert (FB : Forall (fun v => 0 <= v < 2 ^ 64) (map fst (map k_amount kout))).
      { rewrite EQ. apply Forall_map. revert HL2. apply Forall_impl. intros o [H1 H2]. unfold op_value. lia. }
      exact (proj1 (Forall_map _ _ _) (proj1 (Forall_map _ _ _) FB)).
  - right. exists ab. split; [apply in_or_app; now left|exact R2].
Qed.

Lemma bar_opened q k c w : is_opened k -> process_bar E sc (k_bar k) = Ok c -> w_opens E q c w ->
  pedersen E (fst (k_amount k)) (snd (k_amount k)) = pedersen E (fst (w_amount E w)) (snd (w_amount E w)) /\
  madd (smul (fst (k_type k)) (gB E)) (smul (snd (k_type k)) (gBb E)) = madd (smul (fst (w_type E w)) (gB E)) (smul (snd (w_type E w)) (gBb E)).
Proof.
  intros [H1 H2] Hc [G1 [G2 _]]. unfold process_bar in Hc. apply bind_ok in Hc. destruct Hc as [lh [Hl Hc]]. injection Hc as <-. cbn [fst snd] in G1, G2.
  rewrite decompress_compress in G1. rewrite (whole_limbs E _ _ _ H1 Hl) in G1. split; [congruence|].
  destruct (b_type (k_bar k)) as [c|t]; cbn in H2.
  - rewrite H2 in G2. congruence.
  - destruct H2 as [-> ->]. rewrite decompress_compress in G2. unfold commit in G2. congruence.
Qed.
Lemma bars_opened q l cs ws : Forall is_opened l -> Forall (below q) l -> mapM (process_bar E sc) (map k_bar l) = Ok cs -> Forall2 (w_opens E q) cs ws ->
  Forall2 (fun x y => pedersen E (fst x) (snd x) = pedersen E (fst y) (snd y) /\ 0 <= fst x < q /\ 0 <= fst y < q) (map k_amount l) (map (w_amount E) ws) /\
  Forall2 (fun x y => madd (smul (fst x) (gB E)) (smul (snd x) (gBb E)) = madd (smul (fst y) (gB E)) (smul (snd y) (gBb E))) (map k_type l) (map (w_type E) ws).
Proof.
  intros Ho. revert cs ws. induction Ho as [|k l Hk Ho IH]; intros cs ws Bl Hm Hw; cbn [map mapM] in Hm.
  - injection Hm as <-. inversion Hw; subst. split; constructor.
  - apply bind_ok in Hm. destruct Hm as [c [Hc Hr]]. apply rmap_ok in Hr. destruct Hr as [cs' [Hr <-]].
    inversion Hw as [|? w ? ws' W1 W2]; subst. inversion Bl as [|? ? Bk Bl']; subst. destruct (IH _ _ Bl' Hr W2) as [I1 I2].
    destruct (bar_opened q _ _ _ Hk Hc W1) as [P1 P2]. split; cbn [map]; constructor; auto.
    split; [exact P1|]. split; [exact Bk|]. destruct W1 as [_ [_ W1]]. exact W1.
Qed.
Lemma view_eq l ws : map fst (map k_amount l) = map fst (map (w_amount E) ws) -> map fst (map k_type l) = map fst (map (w_type E) ws) ->
  map (view E) l = map (w_view E) ws.
Proof.
  revert ws. induction l as [|k l IH]; intros [|w ws] H1 H2; try discriminate; [reflexivity|]. cbn [map] in *.
  pose proof (f_equal (hd 0) H1) as A1. pose proof (f_equal (hd f0) H2) as A2. cbn [hd] in A1, A2.
  pose proof (f_equal (@tl _) H1) as B1. pose proof (f_equal (@tl _) H2) as B2. cbn [tl] in B1, B2.
  f_equal; [unfold view, w_view; now rewrite A1, A2|]. now apply IH.
Qed.

Lemma step_mix q batch b p kin kout :
  char_ge (PF E) q -> 2 ^ 200 <= q -> mix_extractor E O q mext ->
  verify_bodies E O sc batch = Ok tt -> In b batch -> x_proof E O b = AssetMix E O p ->
  (2 <= length kout <= length kin)%nat ->
  x_in E O b = map k_bar kin -> x_out E O b = map k_bar kout ->
  Forall is_opened kin -> Forall (below (2 ^ 64)) kin -> Forall is_opened kout -> Forall (below q) kout ->
  (Forall (below (2 ^ 64)) kout /\ forall t, worth t kout <= worth t kin)
  \/ exists ab, In ab (pairs_mix E O sc mext (mkApplied E O b kin kout) p) /\ dlog_relation E ab.
Proof.
  intros Hq Hq2 Hx Hv Hb Hp HN Hi Ho Oi Bi Oo Bo.
  destruct (mixes_of E O sc mext q batch b p Hx Hv Hb Hp) as [ci [co [Hci [Hco [Wi [Wo NI]]]]]].
  unfold pairs_mix. cbn [t_body t_in t_out]. assert (Ex : mix_openings E O sc mext b p = mext p ci co) by (unfold mix_openings; now rewrite Hci, Hco).
  rewrite Ex. rewrite Hi in Hci. rewrite Ho in Hco.
  assert (Bi' : Forall (below q) kin) by (revert Bi; apply Forall_impl; unfold below; intros; lia).
  destruct (bars_opened q _ _ _ Oi Bi' Hci Wi) as [A1 T1]. destruct (bars_opened q _ _ _ Oo Bo Hco Wo) as [A2 T2].
  rewrite !map_app.
  destruct (compare_amounts q _ _ Hq (Forall2_app A1 A2)) as [[ab [R1 R2]]|EA]; [right; exists ab; split; [apply in_or_app; now left|exact R2]|].
  destruct (compare_types _ _ (Forall2_app T1 T2)) as [[ab [R1 R2]]|ET]; [right; exists ab; split; [apply in_or_app; now right|exact R2]|].
  left. rewrite !map_app in EA, ET.
  assert (L1 : length (map fst (map k_amount kin)) = length (map fst (map (w_amount E) (fst (mext p ci co))))).
  { rewrite !map_length. apply Forall2_len in A1. now rewrite !map_length in A1. }
  assert (L2 : length (map fst (map k_type kin)) = length (map fst (map (w_type E) (fst (mext p ci co))))).
  { rewrite !map_length. apply Forall2_len in T1. now rewrite !map_length in T1. }
  destruct (app_inj _ _ _ _ L1 EA) as [EA1 EA2]. destruct (app_inj _ _ _ _ L2 ET) as [ET1 ET2].
  pose proof (view_eq _ _ EA1 ET1) as V1. pose proof (view_eq _ _ EA2 ET2) as V2.
  rewrite <- V1, <- V2 in NI. destruct NI as [N1 N2].
  - now rewrite !map_length.
  - apply Forall_map. exact Bi.
  - split; [exact (proj1 (Forall_map _ _ _) N1)|exact N2].
Qed.

Lemma step q batch b kin kout :
  char_ge (PF E) q -> 2 ^ 200 <= q -> range_extractor E O ext -> asset_extractor E O aext -> mix_extractor E O q mext ->
  verify_bodies E O sc batch = Ok tt -> In b batch ->
  (forall p, x_proof E O b = AssetMix E O p -> (2 <= length kout <= length kin)%nat) ->
  x_in E O b = map k_bar kin -> x_out E O b = map k_bar kout ->
  Z.of_nat (length kin) < 2 ^ 60 -> Z.of_nat (length kout) < 2 ^ 60 ->
  Forall is_opened kin -> Forall (fun k => is_typed (k_bar k)) kin -> Forall (below (2 ^ 64)) kin ->
  Forall is_opened kout -> Forall (fun k => is_typed (k_bar k)) kout -> Forall (below q) kout ->
  (Forall (below (2 ^ 64)) kout /\ forall t, worth t kout <= worth t kin) \/ found (mkApplied E O b kin kout).
Proof.
  intros Hq Hq2 Hx Ha Hmx Hv Hb Hm Hi Ho Li Lo Oi Ti Bi Oo To Bo.
  assert (Ft : Forall2 (fun r o => opens_type sc (b_type r) o) (map k_bar kin ++ map k_bar kout) (map k_type kin ++ map k_type kout)).
  { apply Forall2_app; now apply opened_types. }
  assert (TY : forall ap, (x_proof E O b = ConfAsset E O ap \/ exists p, x_proof E O b = ConfAll E O p ap) ->
    all_same (map fst (map k_type kin ++ map k_type kout))
    \/ exists ab, In ab (pairs_type E O sc aext (mkApplied E O b kin kout) ap) /\ dlog_relation E ab).
  { intros ap Hp. destruct (confidential_asset_lemma E O sc aext batch b ap (map k_type kin ++ map k_type kout)) as [A|[cs [ab [A B]]]]; auto.
    - now rewrite Hi, Ho.
    - right. exists ab. unfold pairs_type, type_openings. cbn [t_body t_in t_out]. rewrite A. exact B. }
  pose proof (fun p H => step_range q batch b p kin kout Hq Hq2 Hx Hv Hb H Hi Ho Li Lo Oi Bi Oo To Bo) as AM.
  unfold pairs. cbn [t_body]. destruct (x_proof E O b) as [p|p|ap|p ap|] eqn:Ep.
  - apply (step_mix q batch b p kin kout); auto. now apply (Hm p).
  - destruct (AM p (or_introl eq_refl)) as [[A B]|R]; [left|right; exact R]. split; [exact A|]. apply same_le; [|exact B].
    destruct (plain_types_lemma E O sc batch b p Hv Hb Ep) as [t Ht]. rewrite Hi, Ho in Ht. clear -Ht Oi Oo.
    apply Forall_app in Ht. destruct Ht as [Hti Hto].
    assert (H : forall l, Forall is_opened l -> Forall (fun r => b_type r = TPlain t) (map k_bar l) -> forall x, In x (map fst (map k_type l)) -> x = sc t).
    { intros l Hl Hr x Hx. rewrite map_map in Hx. apply in_map_iff in Hx. destruct Hx as [k [<- Hk]]. rewrite Forall_forall in *. apply plain_type; [auto|]. apply Hr, in_map, Hk. }
    assert (G : forall x, In x (map fst (map k_type kin ++ map k_type kout)) -> x = sc t).
    { intros x Hx. rewrite map_app in Hx. apply in_app_or in Hx. destruct Hx as [h|h]; [exact (H kin Oi Hti x h)|exact (H kout Oo Hto x h)]. }
    intros x y Hx Hy. now rewrite (G x Hx), (G y Hy).
  - destruct (TY ap (or_introl eq_refl)) as [A|R]; [left|right; exact R].
    destruct (plain_amounts_lemma E O sc batch b ap Hv Hb Ep) as [ai [ao [P1 [P2 P3]]]]. rewrite Hi in P1. rewrite Ho in P2. split.
    + apply all_plain_below; auto. apply (F2_left _ _ _ _ (fun r a h => ex_intro _ a h) P2).
    + apply same_le; [exact A|]. rewrite (plain_sum kin ai Oi P1), (plain_sum kout ao Oo P2). lia.
  - destruct (AM p (or_intror (ex_intro _ ap eq_refl))) as [[A B]|[ab [R1 R2]]]; [|right; exists ab; split; [apply in_or_app; now left|exact R2]].
    destruct (TY ap (or_intror (ex_intro _ p eq_refl))) as [C|[ab [R1 R2]]]; [|right; exists ab; split; [apply in_or_app; now right|exact R2]].
    left. split; [exact A|]. now apply same_le.
  - left. destruct (plain_in_batch_lemma E O sc batch b Hv Hb Ep) as [pi [po [P1 [P2 P3]]]].
    + rewrite Hi, Ho, !map_length. lia.
    + rewrite Hi, Ho. intros r a Hr. apply in_app_or in Hr. rewrite !Forall_forall in *. destruct Hr as [Hr|Hr]; apply in_map_iff in Hr; destruct Hr as [k [<- Hk]]; intros Hka; [exact (Ti k Hk a Hka)|exact (To k Hk a Hka)].
    + rewrite Hi in P1. rewrite Ho in P2. split.
      * apply all_plain_below; auto. apply (F2_left _ _ _ _ (fun r a h => ex_intro _ (fst a) (proj1 h)) P2).
      * intros t. rewrite (transparent_worth t kin pi Oi P1), (transparent_worth t kout po Oo P2), (psum_conserved _ _ _ P3). lia.
Qed.

Lemma history_core q issued ts un :
  char_ge (PF E) q -> 2 ^ 200 <= q -> range_extractor E O ext -> asset_extractor E O aext -> mix_extractor E O q mext ->
  history E O sc no_more_outputs q issued ts un ->
  (Forall is_opened un /\ Forall (fun k => is_typed (k_bar k)) un /\ Forall (below (2 ^ 64)) un /\
   forall t, worth t un <= worth t issued) \/
  exists a, In a ts /\ found a.
Proof.
  intros Hq Hq2 Hx Ha Hmx. induction 1 as [|issued ts un k H IH Ok_ Tk Lk|issued ts un rest batch b kin kout H IH Hp Hv Hb Hm Hi Ho Li Lo Oo To Bo].
  - left. repeat split; try constructor. intros t. apply Z.le_refl.
  - destruct IH as [[A [B [C D]]]|R]; [left|right; exact R]. split; [now constructor|]. split; [now constructor|]. split; [now constructor|].
    intros t. rewrite (worth_cons t k un), (worth_cons t k issued). specialize (D t). lia.
  - destruct IH as [[A [B [C D]]]|[a [R1 R2]]]; [|right; exists a; split; [now right|exact R2]].
    assert (A' : Forall is_opened (kin ++ rest)) by (rewrite Forall_forall in *; intros k Hk; apply A; now apply (Permutation_in k (Permutation_sym Hp))).
    assert (B' : Forall (fun k => is_typed (k_bar k)) (kin ++ rest)) by (rewrite Forall_forall in *; intros k Hk; apply B; now apply (Permutation_in k (Permutation_sym Hp))).
    assert (C' : Forall (below (2 ^ 64)) (kin ++ rest)) by (rewrite Forall_forall in *; intros k Hk; apply C; now apply (Permutation_in k (Permutation_sym Hp))).
    apply Forall_app in A', B', C'. destruct A' as [Ai Ar], B' as [Bi Br], C' as [Ci Cr].
    destruct (step q batch b kin kout Hq Hq2 Hx Ha Hmx Hv Hb Hm Hi Ho Li Lo Ai Bi Ci Oo To Bo) as [[S1 S2]|S].
    + left. split; [apply Forall_app; tauto|]. split; [apply Forall_app; tauto|]. split; [apply Forall_app; tauto|].
      intros t. rewrite worth_app. specialize (D t). rewrite (worth_perm t un _ Hp), worth_app in D. specialize (S2 t). lia.
    + right. exists (mkApplied E O b kin kout). split; [now left|exact S].
Qed.
End Proofs.
