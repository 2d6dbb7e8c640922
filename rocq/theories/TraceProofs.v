(** Lemmas for the theorems about tracing. *)
From Coq Require Import List NArith ZArith Bool Lia ZifyBool ZifyNat ZifyN.
From Verif Require Import Base Field UtilsModel XfrModel XfrSpec XfrProofs SigmaModel SigmaSpec SigmaProofs SigmaProps NoteModel KeyModel HybModel KeySpec KeyProofs HybProofs HybProps RecordModel RecordSpec TraceModel TraceSpec.
Import ListNotations.
Local Open Scope N_scope.

Lemma bind_inv {T U} (r : res T) (f : T -> res U) y : bind r f = Ok y -> exists x, r = Ok x /\ f x = Ok y.
Proof. destruct r as [x| |]; try discriminate. intros Q. now exists x. Qed.
Lemma mapM_ext2 {A B T} (f : A -> res T) (g : B -> res T) l l' : Forall2 (fun a b => f a = g b) l l' -> mapM f l = mapM g l'.
Proof. induction 1 as [|a b l l' E _ IH]; [reflexivity|]. cbn [mapM]. now rewrite E, IH. Qed.
Lemma Forall2_flat {A B C D} (R : A -> B -> Prop) (Q : C -> D -> Prop) (f : A -> list C) (g : B -> list D) l l' :
  (forall a b, R a b -> Forall2 Q (f a) (g b)) -> Forall2 R l l' -> Forall2 Q (flat_map f l) (flat_map g l').
Proof. intros K. induction 1 as [|a b l l' E _ IH]; [constructor|]. cbn [flat_map]. apply Forall2_app; auto. Qed.
Lemma mapM_err {A T} (f : A -> res T) l x : (forall a, In a l -> f a <> Panic) -> In x l -> f x = Err -> mapM f l = Err.
Proof.
  induction l as [|a l IH]; intros NP Hin Hx; [destruct Hin|]. cbn [mapM]. destruct (f a) as [y| |] eqn:Ea.
  - cbn [bind]. destruct Hin as [->|Hin]; [congruence|]. rewrite IH; auto. intros a' Ha. apply NP. now right.
  - reflexivity.
  - now destruct (NP a (or_introl eq_refl)).
Qed.
Lemma combine_app {A B} (a a' : list A) (b b' : list B) : length a = length b -> combine (a ++ a') (b ++ b') = combine a b ++ combine a' b'.
Proof. revert b. induction a as [|x a IH]; intros [|y b] Hl; try discriminate; [reflexivity|]. cbn. f_equal. apply IH. now injection Hl. Qed.
Lemma combine_map {A B C} (f : A -> B) (g : A -> C) l : combine (map f l) (map g l) = map (fun x => (f x, g x)) l.
Proof. induction l as [|x l IH]; [reflexivity|]. cbn. now rewrite IH. Qed.
Lemma Forall2_same {A} (R : A -> A -> Prop) l : (forall x, In x l -> R x x) -> Forall2 R l l.
Proof. induction l as [|x l IH]; intros K; constructor; [apply K; now left|]. apply IH. intros y Hy. apply K. now right. Qed.
Lemma Forall2_by_nth {A B} (R : A -> B -> Prop) l l' : length l = length l' ->
  (forall i a b, nth_error l i = Some a -> nth_error l' i = Some b -> R a b) -> Forall2 R l l'.
Proof.
  revert l'. induction l as [|a l IH]; intros [|b l'] Hl K; try discriminate; constructor; [now apply (K 0%nat)|].
  apply IH; [now injection Hl|]. intros i. apply (K (S i)).
Qed.

Section Maps.
Context (E : pgroup).
Definition lm_rel {V W : Type} (R : PG E -> V -> W -> Prop) (m : list (PG E * list V)) (m' : list (PG E * list W)) : Prop :=
  Forall2 (fun a b => fst a = fst b /\ Forall2 (R (fst a)) (snd a) (snd b)) m m'.
Lemma lm_push_rel {V W} (R : PG E -> V -> W -> Prop) m m' k v w : lm_rel R m m' -> R k v w -> lm_rel R (lm_push E m k v) (lm_push E m' k w).
Proof.
  intros Hm Hr. induction Hm as [|[k1 l] [k2 l'] m m' [E1 E2] Hm IH]; cbn [lm_push].
  - constructor; [split; [reflexivity|]|constructor]. constructor; [exact Hr|constructor].
  - cbn [fst snd] in *. subst k2. destruct (meqb_spec k1 k) as [->|N].
    + constructor; [|exact Hm]. split; [reflexivity|]. cbn [fst snd]. apply Forall2_app; [exact E2|]. constructor; [exact Hr|constructor].
    + constructor; [split; [reflexivity|exact E2]|exact IH].
Qed.
Lemma lm_collect_rel {V W} (R : PG E -> V -> W -> Prop) l l' :
  Forall2 (fun a b => fst a = fst b /\ R (fst a) (snd a) (snd b)) l l' -> forall m m', lm_rel R m m' -> lm_rel R (lm_collect E l m) (lm_collect E l' m').
Proof.
  induction 1 as [|[k v] [k2 w] l l' [E1 E2] _ IH]; intros m m' Hm; [exact Hm|]. cbn [fst snd] in *. subst k2. unfold lm_collect. cbn [fold_left fst snd]. apply IH. now apply lm_push_rel.
Qed.
Lemma lm_collect_app {V} (a b : list (PG E * V)) m : lm_collect E (a ++ b) m = lm_collect E b (lm_collect E a m).
Proof. unfold lm_collect. apply fold_left_app. Qed.
Lemma lm_push_in {V} (m : list (PG E * list V)) k v : exists vs, In (k, vs) (lm_push E m k v) /\ In v vs.
Proof.
  induction m as [|[k' l] m IH]; cbn [lm_push]; [exists [v]; split; left; reflexivity|]. destruct (meqb_spec k' k) as [->|N].
  - exists (l ++ [v]). split; [now left|]. apply in_or_app. right. now left.
  - destruct IH as [vs [I1 I2]]. exists vs. split; [now right|exact I2].
Qed.
Lemma lm_push_keep {V} (m : list (PG E * list V)) k v k' vs x : In (k', vs) m -> In x vs -> exists vs', In (k', vs') (lm_push E m k v) /\ In x vs'.
Proof.
  induction m as [|[k1 l] m IH]; intros Hi Hx; [destruct Hi|]. cbn [lm_push]. destruct (meqb_spec k1 k) as [->|N].
  - destruct Hi as [Eq|Hi]; [injection Eq as -> ->; exists (vs ++ [v]); split; [now left|]; apply in_or_app; now left|]. exists vs. split; [now right|exact Hx].
  - destruct Hi as [Eq|Hi]; [injection Eq as -> ->; exists vs; split; [now left|exact Hx]|].
    destruct (IH Hi Hx) as [vs' [I1 I2]]. exists vs'. split; [now right|exact I2].
Qed.
Lemma lm_collect_keep {V} (l : list (PG E * V)) : forall m k vs x, In (k, vs) m -> In x vs -> exists vs', In (k, vs') (lm_collect E l m) /\ In x vs'.
Proof.
  induction l as [|[k1 v1] l IH]; intros m k vs x Hi Hx; [now exists vs|]. unfold lm_collect. cbn [fold_left fst snd].
  destruct (lm_push_keep m k1 v1 k vs x Hi Hx) as [vs' [I1 I2]]. eapply IH; eassumption.
Qed.
Lemma lm_collect_in {V} (l : list (PG E * V)) : forall m k v, In (k, v) l -> exists vs, In (k, vs) (lm_collect E l m) /\ In v vs.
Proof.
  induction l as [|[k1 v1] l IH]; intros m k v Hi; [destruct Hi|]. unfold lm_collect. cbn [fold_left fst snd]. destruct Hi as [Eq|Hi].
  - injection Eq as -> ->. destruct (lm_push_in m k v) as [vs [I1 I2]]. eapply lm_collect_keep; eassumption.
  - now apply IH.
Qed.
End Maps.

Section Trace.
Context (H : hsuite) (E : pgroup) (O : oracles E) (as_scalar : N -> PF E).
Context {BF : Field} {BG : Mod BF} (BB : BG) (IP IDP CM : Type).
Context (ac_verify : IP -> BG -> CM -> list (BG * BG) -> IDP -> res unit).
Context (chal : oracle (F := PF E) (G := PG E)) (t0 : transcript (F := PF E) (G := PG E)).
Local Notation policy := (policy E (BG := BG) IP).
Local Notation tmemo := (tmemo E (BG := BG)).
Local Notation arecord := (arecord E (BG := BG) IP IDP).
Local Notation tbody := (tbody E O (BG := BG) IDP).
Local Notation npol := (npol E (BG := BG) IP CM).
Local Notation hrec := (hrec E (BG := BG) IP IDP).
Local Notation B := (gB E). Local Notation Bb := (gBb E).

Lemma hidden_spec (b : bar E) : hidden E b = true <-> get_record_type E b <> RT_NonConfAmt_NonConfType.
Proof. unfold hidden. destruct (get_record_type E b); split; intros Q; try reflexivity; try discriminate; try (intros Q2; discriminate). now destruct Q. Qed.
Lemma hidden_conf (b : bar E) : hidden E b = amount_conf E b || type_conf E b.
Proof. unfold hidden, get_record_type, from_flags. now destruct (amount_conf E b), (type_conf E b). Qed.

(** ** Honest slots *)
Definition honest_slot (k : PG E) (rm : arecord * tmemo) (bm : bar E * tmemo) : Prop :=
  fst bm = o_bar E (ar_open E IP IDP (fst rm)) /\ snd bm = snd rm /\
  let o := ar_open E IP IDP (fst rm) in
  consistent E as_scalar o /\
  exists e p attrs, p_asset E IP p = true /\ ek_rec E (p_keys E IP p) = k /\
    snd rm = tm_new H E as_scalar e (p_keys E IP p) (amount_info E IP p (amount_conf E (o_bar E o)) (o_amount E o) (o_blind_lo E o, o_blind_hi E o))
      (type_info E IP p (type_conf E (o_bar E o)) (o_type E o) (o_type_blind E o)) attrs.
Definition good_parts (k : PG E) (ps : list (PF E * PF E * rct E * PG E)) : Prop :=
  Forall (fun p => same_message B Bb k (snd (fst p)) (snd p) (fst (fst (fst p))) (snd (fst (fst p)))) ps.
Lemma honest_slot_parts k rm bm : honest_slot k rm bm ->
  exists ps, prove_parts E as_scalar (ar_open E IP IDP (fst rm)) (snd rm) = Ok ps /\
    extract_parts E (fst bm) (snd bm) = Ok (map (fun p => (snd (fst p), snd p)) ps) /\ good_parts k ps.
Proof.
  destruct rm as [r m], bm as [b m']. unfold honest_slot. cbn [fst snd]. intros [-> [-> [[Hu [Ca Ct]] [e [p [attrs [Pa [Pk ->]]]]]]]].
  set (o := ar_open E IP IDP r) in *. clearbody o. destruct o as [[am ty pk] a bl bh t tb]. cbn [o_bar o_amount o_blind_lo o_blind_hi o_type o_type_blind b_amount b_type] in *.
  unfold prove_parts, extract_parts, tm_new, amount_info, type_info, amount_conf, type_conf. rewrite Pa.
  cbn [o_bar o_amount o_blind_lo o_blind_hi o_type o_type_blind b_amount b_type tm_amount tm_type andb].
  assert (Sm : forall v x, same_message B Bb k (enc_rec E (p_keys E IP p) v x) (madd (smul v B) (smul x Bb)) v x).
  { intros v x. split; [|reflexivity]. unfold encrypts, enc_rec, elgamal_encrypt. now rewrite Pk. }
  assert (Z1 : fofZ (Z.of_N a mod 2 ^ 32) = (fofN (a mod 2 ^ 32) : PF E)) by (unfold fofN; now rewrite N2Z.inj_mod).
  assert (Z2 : fofZ (Z.of_N a / 2 ^ 32) = (fofN (a / 2 ^ 32) : PF E)) by (unfold fofN; now rewrite N2Z.inj_div).
  destruct Ca as [[-> _]| ->], Ct as [[-> _]| ->]; cbn [bind andb negb]; rewrite ?u64_pair_spec; cbn [XfrModel.opt]; rewrite ?decompress_compress; cbn [bind XfrModel.opt].
  - exists []. repeat split. constructor.
  - eexists. split; [reflexivity|]. split; [reflexivity|]. constructor; [apply Sm|constructor].
  - eexists. split; [reflexivity|]. split; [reflexivity|]. unfold pedersen. rewrite Z1, Z2. constructor; [apply Sm|]. constructor; [apply Sm|constructor].
  - eexists. split; [reflexivity|]. split; [reflexivity|]. unfold pedersen. rewrite Z1, Z2. constructor; [apply Sm|]. constructor; [apply Sm|]. constructor; [apply Sm|constructor].
Qed.
Lemma honest_slots_parts k l l' : Forall2 (honest_slot k) l l' ->
  exists pss, mapM (fun rm => prove_parts E as_scalar (ar_open E IP IDP (fst rm)) (snd rm)) l = Ok pss /\
    mapM (fun bm => extract_parts E (fst bm) (snd bm)) l' = Ok (map (map (fun p => (snd (fst p), snd p))) pss) /\ good_parts k (concat pss).
Proof.
  induction 1 as [|rm bm l l' Hs _ [pss [E1 [E2 G]]]]; [exists []; repeat split; constructor|].
  destruct (honest_slot_parts k rm bm Hs) as [ps [P1 [P2 P3]]]. exists (ps :: pss). cbn [mapM]. rewrite P1, P2, E1, E2. cbn [bind rmap]. repeat split.
  cbn [concat]. unfold good_parts. apply Forall_app. now split.
Qed.
Lemma good_nth k ps j a b c d : good_parts k ps ->
  nth_error (map (fun p => fst (fst (fst p))) ps) j = Some a -> nth_error (map (fun p => snd (fst (fst p))) ps) j = Some b ->
  nth_error (map (fun p => snd (fst p)) ps) j = Some c -> nth_error (map snd ps) j = Some d -> same_message B Bb k c d a b.
Proof.
  intros G. rewrite !nth_error_map. destruct (nth_error ps j) as [p|] eqn:Ep; [|discriminate]. cbn [option_map]. intros A1 A2 A3 A4.
  injection A1 as <-. injection A2 as <-. injection A3 as <-. injection A4 as <-. unfold good_parts in G. rewrite Forall_forall in G. apply G. eapply nth_error_In, Ep.
Qed.
Lemma honest_keys_proofs m m' : lm_rel E honest_slot m m' -> forall gs,
  exists ps iss, key_proofs E as_scalar IP IDP chal t0 gs m = Ok ps /\ length ps = length m' /\
    body_instances E (m', ps) = Ok iss /\ Forall (honest_instance B Bb chal t0) iss.
Proof.
  induction 1 as [|[k l] [k' l'] m m' [E1 E2] Hm IH]; intros gs; [exists [], []; repeat split; constructor|]. cbn [fst snd] in *. subst k'.
  destruct (honest_slots_parts k l l' E2) as [pss [P1 [P2 P3]]]. destruct (IH (fun n => gs (S n))) as [ps [iss [Q1 [Q2 [Q3 Q4]]]]].
  cbn [key_proofs]. unfold same_key_proof. rewrite P1. cbn [bind].
  destruct (C28_prover_succeeds B Bb chal t0 (gs 0%nat) (map (fun p => fst (fst (fst p))) (concat pss)) (map (fun p => snd (fst (fst p))) (concat pss)) k
    (map (fun p => snd (fst p)) (concat pss)) (map snd (concat pss))) as [p [R1 R2]]; [now rewrite !map_length ..|intros; eapply good_nth; eassumption|].
  rewrite R1. cbn [bind]. rewrite Q1. cbn [bind]. eexists (p :: ps), (_ :: iss). split; [reflexivity|]. split; [cbn; now rewrite Q2|]. split; [|constructor; [exact R2|exact Q4]].
  unfold body_instances in *. cbn [fst snd combine mapM] in *. rewrite Q3. unfold extract_all. rewrite P2. cbn [bind rmap]. f_equal. f_equal.
  assert (C : concat (map (map (fun p0 : PF E * PF E * rct E * PG E => (snd (fst p0), snd p0))) pss) = map (fun p0 => (snd (fst p0), snd p0)) (concat pss)) by (now rewrite concat_map).
  rewrite C, !map_map. reflexivity.
Qed.

(** From honest records to honest slots. *)
Lemma memos_slots (r : arecord) (ps : list policy) : forall es attrs ms,
  let o := ar_open E IP IDP r in
  consistent E as_scalar o -> length attrs = length ps ->
  ms = tracer_memos H E as_scalar IP es ps attrs (amount_conf E (o_bar E o)) (type_conf E (o_bar E o)) (o_amount E o) (o_type E o) (o_blind_lo E o, o_blind_hi E o) (o_type_blind E o) ->
  length ms = length ps /\
  Forall2 (fun a b => fst a = fst b /\ honest_slot (fst a) (snd a) (snd b))
    (flat_map (fun pm => if p_asset E IP (fst pm) && hidden E (o_bar E o) then [(ek_rec E (p_keys E IP (fst pm)), (r, snd pm))] else []) (combine ps ms))
    (if hidden E (o_bar E o) then flat_map (fun pm => if p_asset E IP (fst pm) then [(ek_rec E (p_keys E IP (fst pm)), (o_bar E o, snd pm))] else []) (combine ps ms) else []).
Proof.
  intros es attrs ms o Hc. revert es attrs ms. induction ps as [|p ps IH]; intros es [|al attrs] ms Hl ->; try discriminate.
  - split; [reflexivity|]. cbn [tracer_memos combine flat_map]. destruct (hidden E (o_bar E o)); constructor.
  - injection Hl as Hl. destruct (IH (fun n => es (S n)) attrs _ Hl eq_refl) as [IL IF]. cbn [tracer_memos combine length]. split; [now rewrite IL|].
    destruct (hidden E (o_bar E o)) eqn:Eh; cbn [flat_map fst snd].
    + rewrite andb_true_r. apply Forall2_app.
      * destruct (p_asset E IP p) eqn:Ep; [|constructor]. constructor; [|constructor]. split; [reflexivity|]. cbn [fst snd]. unfold honest_slot. cbn [fst snd].
        split; [reflexivity|]. split; [reflexivity|]. split; [exact Hc|]. now exists (es 0%nat), p, al.
      * revert IF. apply Forall2_impl. auto.
    + rewrite andb_false_r. cbn [app]. exact IF.
Qed.
Lemma record_slots (x : hrec) : honest_record H E as_scalar IP IDP x ->
  length (ar_memos E IP IDP (h_rec E IP IDP x)) = length (h_policies E IP IDP x) /\
  Forall2 (fun a b => fst a = fst b /\ honest_slot (fst a) (snd a) (snd b))
    (prover_slots E IP IDP (h_rec E IP IDP x)) (verifier_slots E IP (h_policies E IP IDP x, h_bar E IP IDP x, ar_memos E IP IDP (h_rec E IP IDP x))).
Proof.
  intros [Hc [Hl Hm]]. unfold prover_slots, verifier_slots.
  destruct (memos_slots (h_rec E IP IDP x) (h_policies E IP IDP x) (h_es E IP IDP x) (h_attrs E IP IDP x) _ Hc Hl Hm) as [L S]. now split.
Qed.
Lemma records_slots (xs : list hrec) : Forall (honest_record H E as_scalar IP IDP) xs ->
  Forall2 (fun a b => fst a = fst b /\ honest_slot (fst a) (snd a) (snd b))
    (flat_map (prover_slots E IP IDP) (map (h_rec E IP IDP) xs))
    (flat_map (verifier_slots E IP) (combine (combine (map (h_policies E IP IDP) xs) (map (h_bar E IP IDP) xs)) (map (fun x => ar_memos E IP IDP (h_rec E IP IDP x)) xs))).
Proof.
  intros Hx. induction Hx as [|x xs Hh _ IH]; [constructor|]. cbn [map combine flat_map]. apply Forall2_app; [|exact IH]. now apply record_slots.
Qed.

(** The verifier's map of a transfer that carries honest records. *)
Lemma honest_map (b : tbody) ins outs : Forall (honest_record H E as_scalar IP IDP) (ins ++ outs) -> carries E O IP IDP b ins outs ->
  exists m, collect_by_key E O IP IDP b (map (h_policies E IP IDP) ins) (map (h_policies E IP IDP) outs) = Ok m /\
    lm_rel E honest_slot (prover_map E IP IDP (map (h_rec E IP IDP) ins) (map (h_rec E IP IDP) outs)) m.
Proof.
  intros Hh [C1 [C2 C3]]. unfold collect_by_key. rewrite C1, C2, C3, !map_length, app_length.
  replace (Nat.ltb (length ins + length outs) (length ins)) with false by (symmetry; apply Nat.ltb_ge; lia).
  rewrite map_app. rewrite (firstn_app_len (length ins)) by apply map_length. rewrite (skipn_app_len (length ins)) by apply map_length.
  unfold collect_bars. rewrite !map_length, !Nat.eqb_refl. cbn [negb orb bind]. eexists. split; [reflexivity|].
  rewrite <- lm_collect_app. unfold prover_map. apply lm_collect_rel; [|constructor]. rewrite <- map_app. apply Forall_app in Hh. destruct Hh as [H1 H2].
  rewrite map_app, flat_map_app. apply Forall2_app; now apply records_slots.
Qed.

(** ** What the verifier reads *)
Definition reads_same (_ : PG E) (a b : bar E * tmemo) : Prop := fst a = fst b /\ tm_amount E (snd a) = tm_amount E (snd b) /\ tm_type E (snd a) = tm_type E (snd b).
Lemma reads_parts k a b : reads_same k a b -> extract_parts E (fst a) (snd a) = extract_parts E (fst b) (snd b).
Proof. intros [E1 [E2 E3]]. unfold extract_parts. now rewrite E1, E2, E3. Qed.
Lemma reads_instances m m' ps : lm_rel E reads_same m m' -> body_instances E (m, ps) = body_instances E (m', ps).
Proof.
  intros Hm. unfold body_instances. cbn [fst snd]. apply mapM_ext2. revert ps. induction Hm as [|[k l] [k' l'] m m' [E1 E2] _ IH]; intros [|p ps]; try constructor; [|apply IH].
  cbn [fst snd] in *. subst k'. unfold extract_all. rewrite (mapM_ext2 _ (fun bm => extract_parts E (fst bm) (snd bm)) l l'); [reflexivity|]. revert E2. apply Forall2_impl. intros a b. apply reads_parts.
Qed.
Lemma slots_same ps b : forall ms ms', record_same E IP ps b ms ms' ->
  Forall2 (fun x y => fst x = fst y /\ reads_same (fst x) (snd x) (snd y)) (verifier_slots E IP (ps, b, ms)) (verifier_slots E IP (ps, b, ms')).
Proof.
  unfold verifier_slots. destruct (hidden E b) eqn:Eh; [|constructor]. apply hidden_spec in Eh.
  induction ps as [|p ps IH]; intros ms ms' [Hl Hs]; [constructor|]. destruct ms as [|m ms], ms' as [|m' ms']; try discriminate; [constructor|]. cbn [combine flat_map fst snd].
  apply Forall2_app.
  - destruct (p_asset E IP p) eqn:Ep; [|constructor]. constructor; [|constructor]. split; [reflexivity|]. destruct (Hs 0%nat p m m' eq_refl eq_refl eq_refl) as [_ K]. now destruct (K Eh Ep).
  - apply IH. split; [now injection Hl|]. intros j. apply (Hs (S j)).
Qed.
Lemma side_slots ps bs ms ms' : side_same E IP ps bs ms ms' ->
  Forall2 (fun x y => fst x = fst y /\ reads_same (fst x) (snd x) (snd y))
    (flat_map (verifier_slots E IP) (combine (combine ps bs) ms)) (flat_map (verifier_slots E IP) (combine (combine ps bs) ms')).
Proof.
  intros [L1 [L2 [L3 K]]]. revert bs ms ms' L1 L2 L3 K. induction ps as [|p ps IH]; intros [|b bs] [|m ms] [|m' ms'] L1 L2 L3 K; try discriminate; [constructor|].
  cbn [combine flat_map]. apply Forall2_app; [apply slots_same; now apply (K 0%nat)|]. apply IH; [now injection L1|now injection L2|now injection L3|]. intros i. apply (K (S i)).
Qed.
Lemma identity_record_same ps b ms ms' pfs sig : record_same E IP ps b ms ms' ->
  verify_identity_record E IP IDP CM ac_verify (ps, (ms, (pfs, sig))) = verify_identity_record E IP IDP CM ac_verify (ps, (ms', (pfs, sig))).
Proof.
  intros [Hl Hs]. unfold verify_identity_record. rewrite Hl. destruct (negb _ || negb _); [reflexivity|]. f_equal. apply mapM_ext2.
  revert ms ms' pfs Hl Hs. induction ps as [|p ps IH]; intros [|m ms] [|m' ms'] [|pf pfs] Hl Hs; try discriminate; try constructor.
  - unfold verify_identity_slot. destruct (p_ident E IP p) as [ip|] eqn:Ei; [|reflexivity]. destruct (Hs 0%nat p m m' eq_refl eq_refl eq_refl) as [K _].
    rewrite K by (rewrite Ei; discriminate). reflexivity.
  - apply IH; [now injection Hl|]. intros j. apply (Hs (S j)).
Qed.
Lemma identity_side_same ps bs ms ms' pfs sigs : side_same E IP ps bs ms ms' ->
  verify_identity_proofs E IP IDP CM ac_verify ps ms pfs sigs = verify_identity_proofs E IP IDP CM ac_verify ps ms' pfs sigs.
Proof.
  intros [L1 [L2 [L3 K]]]. unfold verify_identity_proofs. rewrite L3. destruct (negb _ || negb _); [reflexivity|].
  assert (Z : Nat.eqb (length ps) 0 = true -> forallb is_nil ms = forallb is_nil ms').
  { intros Z. apply Nat.eqb_eq in Z. destruct ms as [|? ?], ms' as [|? ?]; try reflexivity; cbn in *; try discriminate; lia. }
  assert (M : mapM (verify_identity_record E IP IDP CM ac_verify) (combine ps (combine ms (combine pfs sigs))) = mapM (verify_identity_record E IP IDP CM ac_verify) (combine ps (combine ms' (combine pfs sigs)))).
  { apply mapM_ext2. clear Z. generalize (combine pfs sigs) as q. revert bs ms ms' L1 L2 L3 K. induction ps as [|p ps IH]; intros [|b bs] [|m ms] [|m' ms'] L1 L2 L3 K q; try discriminate; try constructor.
    destruct q as [|[pf sg] q]; [constructor|]. cbn [combine]. constructor; [apply (identity_record_same p b); now apply (K 0%nat)|].
    apply (IH bs); [now injection L1|now injection L2|now injection L3|]. intros i. apply (K (S i)). }
  rewrite M. destruct (Nat.eqb (length ps) 0); [rewrite (Z eq_refl)|]; reflexivity.
Qed.
Lemma body_same_map np (b b' : tbody) : body_same E O IP IDP CM np b b' ->
  exists m m', collect_by_key E O IP IDP b (np_in E IP CM np) (np_out E IP CM np) = Ok m /\
    collect_by_key E O IP IDP b' (np_in E IP CM np) (np_out E IP CM np) = Ok m' /\ lm_rel E reads_same m m'.
Proof.
  intros [[S1 _] [mi [mo [mi' [mo' [M1 [M2 [Si So]]]]]]]]. pose proof Si as [A1 [A2 [A3 _]]]. pose proof So as [B1 [B2 [B3 _]]].
  unfold collect_by_key. rewrite S1, M1, M2, !app_length. replace (Nat.ltb (length mi + length mo) _) with false by (symmetry; apply Nat.ltb_ge; lia).
  replace (Nat.ltb (length mi' + length mo') _) with false by (symmetry; apply Nat.ltb_ge; lia).
  rewrite (firstn_app_len _ mi) by lia. rewrite (skipn_app_len _ mi) by lia. rewrite (firstn_app_len _ mi') by lia. rewrite (skipn_app_len _ mi') by lia.
  unfold collect_bars. rewrite A1, A2, A3, B1, B2, B3, !Nat.eqb_refl. cbn [negb orb bind]. eexists. eexists. split; [reflexivity|]. split; [reflexivity|].
  apply lm_collect_rel; [apply side_slots; exact So|]. apply lm_collect_rel; [apply side_slots; exact Si|constructor].
Qed.
Lemma body_same_identities np (b b' : tbody) : body_same E O IP IDP CM np b b' ->
  verify_identities E O IP IDP CM ac_verify (b, np) = verify_identities E O IP IDP CM ac_verify (b', np).
Proof.
  intros [[S1 [S2 [S3 S4]]] [mi [mo [mi' [mo' [M1 [M2 [Si So]]]]]]]]. pose proof Si as [A1 [A2 [A3 _]]]. pose proof So as [B1 [B2 [B3 _]]].
  unfold verify_identities. rewrite S1, S3, S4, M1, M2, !app_length. replace (Nat.ltb (length mi + length mo) _) with false by (symmetry; apply Nat.ltb_ge; lia).
  replace (Nat.ltb (length mi' + length mo') _) with false by (symmetry; apply Nat.ltb_ge; lia).
  rewrite (firstn_app_len _ mi) by lia. rewrite (skipn_app_len _ mi) by lia. rewrite (firstn_app_len _ mi') by lia. rewrite (skipn_app_len _ mi') by lia.
  rewrite (identity_side_same _ _ _ _ _ _ Si), (identity_side_same _ _ _ _ _ _ So). reflexivity.
Qed.
End Trace.
