(** C65: parameters that were stored, loaded or reduced mean the same as the ones created. *)
From Coq Require Import List Arith NArith ZArith Lia Bool Field Ring.
From Verif Require Import Base Field PField Power Primality UtilsModel UtilsProps NoteProofs TurboModel TurboSpec PermModel PermSpec PermProps PolyModel PolySpec PolyProofs PolyLemmas PolyFft PolyProps
  KzgModel KzgSpec KzgProofs KzgProps PlonkModel PlonkPoly PlonkProofs PlonkCore PlonkHonest PlonkComplete PlonkSound PlonkAttack PlonkExact PlonkProps ParamsModel ParamsProofs.
Import ListNotations.

(** Decoding undoes encoding. *)
Definition keeps {A} (c : codec A) : Prop := forall a, dec c (enc c a) = Ok a.

(** ** The reference string as bytes *)
Section Files.
Context {F : PField} {G1 G2 : Mod F} (c1 : codec G1) (c2 : codec G2) (X1 : exact c1) (X2 : exact c2).
(** What was written is read back, whatever follows it. *)
Theorem C65_srs_round_trip (k : kzg G1 G2) junk :
  (N.of_nat (length (pp1 k)) < 2 ^ 32)%N -> (N.of_nat (length (pp2 k)) < 2 ^ 32)%N -> kzg_from_bytes c1 c2 (kzg_to_bytes c1 c2 k ++ junk) = Ok k.
Proof. now apply round_trip. Qed.
(** Accepted bytes: as many elements as the two counts say, each the decoding of its own
    bytes, all of them inside the input. *)
Theorem C65_srs_accepted bs k : kzg_from_bytes c1 c2 bs = Ok k ->
  let n1 := u32_of (firstn 4 bs) in let n2 := u32_of (firstn 4 (skipn 4 bs)) in
  length (pp1 k) = n1 /\ length (pp2 k) = n2 /\ (8 + esize c1 * n1 + esize c2 * n2 <= length bs)%nat /\
  (forall i, (i < n1)%nat -> exists a, nth_error (pp1 k) i = Some a /\ dec c1 (firstn (esize c1) (skipn (esize c1 * i) (skipn 8 bs))) = Ok a) /\
  (forall i, (i < n2)%nat -> exists a, nth_error (pp2 k) i = Some a /\ dec c2 (firstn (esize c2) (skipn (esize c2 * i) (skipn (8 + esize c1 * n1) bs))) = Ok a).
Proof.
  intros H n1 n2. unfold kzg_from_bytes in H. destruct (Nat.ltb_spec (length bs) 8) as [|L8]; [discriminate|]. fold n1 n2 in H. cbv zeta in H.
  destruct (Nat.ltb_spec (length bs) (8 + esize c1 * n1)) as [|Lb]; [discriminate|].
  apply bind_ok in H. destruct H as [p1 [H1 H]]. apply bind_ok in H. destruct H as [p2 [H2 H]]. apply Ok_inj in H. subst k. cbn [pp1 pp2].
  apply read_elems_inv in H1. apply read_elems_inv in H2. destruct H1 as [A1 [B1 D1]], H2 as [A2 [B2 D2]]. repeat split; auto.
  rewrite !skipn_length in *. destruct B2 as [->|B2]; lia.
Qed.
Lemma read_cut {A} (c : codec A) : exact c -> forall l k pre m, length pre = (esize c * k)%nat -> (m < esize c * length l)%nat ->
  Base.mapM (fun i => bind (slice (esize c * i) (esize c * (i + 1)) (pre ++ firstn m (flat_map (enc c) l))) (dec c)) (seq k (length l)) = Panic.
Proof.
  intros X. induction l as [|a l IH]; intros k pre m L Hm; cbn [length] in Hm; [lia|]. cbn [flat_map length seq Base.mapM].
  destruct (X a) as [La Da]. destruct (Nat.lt_ge_cases m (esize c)) as [Y|Y].
  - unfold slice. rewrite app_length, firstn_length, app_length, La, L. destruct (Nat.leb_spec (esize c * (k + 1)) (esize c * k + Nat.min m (esize c + length (flat_map (enc c) l)))) as [Y2|_]; [exfalso; nia|]. reflexivity.
  - assert (E : firstn m (enc c a ++ flat_map (enc c) l) = enc c a ++ firstn (m - esize c) (flat_map (enc c) l)) by (rewrite firstn_app, La; f_equal; apply firstn_all2; lia).
    rewrite E. rewrite (slice_mid pre (enc c a)) by (rewrite ?La; lia). cbn [bind]. rewrite Da. cbn [bind]. rewrite app_assoc.
    rewrite IH; [reflexivity|rewrite app_length, La, L; lia|nia].
Qed.
(** A file cut short is an error only while the counts themselves are missing. *)
Theorem C65_truncated_srs (k : kzg G1 G2) l :
  (N.of_nat (length (pp1 k)) < 2 ^ 32)%N -> (N.of_nat (length (pp2 k)) < 2 ^ 32)%N -> (l < length (kzg_to_bytes c1 c2 k))%nat ->
  kzg_from_bytes c1 c2 (firstn l (kzg_to_bytes c1 c2 k)) = if Nat.ltb l 8 then Err else Panic.
Proof.
  intros H1 H2 Hl. unfold kzg_from_bytes, kzg_to_bytes in *. set (A := u32_bytes (length (pp1 k))) in *. set (B := u32_bytes (length (pp2 k))) in *.
  set (P := flat_map (enc c1) (pp1 k)) in *. set (Q := flat_map (enc c2) (pp2 k)) in *.
  assert (LA : length A = 4%nat) by apply u32_len. assert (LB : length B = 4%nat) by apply u32_len.
  assert (LP : length P = (esize c1 * length (pp1 k))%nat) by now apply enc_len. assert (LQ : length Q = (esize c2 * length (pp2 k))%nat) by now apply enc_len.
  rewrite !app_length, LA, LB, LP, LQ in Hl. rewrite firstn_length, !app_length, LA, LB, LP, LQ. rewrite Nat.min_l by lia.
  destruct (Nat.ltb_spec l 8) as [|L8]; [reflexivity|].
  assert (E : firstn l (A ++ B ++ P ++ Q) = A ++ B ++ firstn (l - 8) (P ++ Q)).
  { rewrite !firstn_app, LA, LB. rewrite (firstn_all2 A), (firstn_all2 B) by lia. now replace (l - 4 - 4)%nat with (l - 8)%nat by lia. }
  assert (UA : u32_of A = length (pp1 k)) by now apply u32_back. assert (UB : u32_of B = length (pp2 k)) by now apply u32_back.
  assert (F1 : forall Z, firstn 4 (A ++ Z) = A) by (intros Z; rewrite firstn_app, LA, Nat.sub_diag, firstn_O, app_nil_r; rewrite <- LA; apply firstn_all).
  assert (F2 : forall Z, firstn 4 (B ++ Z) = B) by (intros Z; rewrite firstn_app, LB, Nat.sub_diag, firstn_O, app_nil_r; rewrite <- LB; apply firstn_all).
  assert (S4 : forall Z, skipn 4 (A ++ Z) = Z) by (intros Z; rewrite skipn_app, LA, Nat.sub_diag, skipn_all2 by lia; reflexivity).
  assert (S8 : forall Z, skipn 8 (A ++ B ++ Z) = Z) by (intros Z; rewrite app_assoc, skipn_app, app_length, LA, LB, skipn_all2 by (rewrite app_length; lia); reflexivity).
  rewrite E, F1, S4, F2, UA, UB. cbv zeta. destruct (Nat.ltb_spec l (8 + esize c1 * length (pp1 k))) as [|L1]; [reflexivity|].
  assert (E2 : firstn (l - 8) (P ++ Q) = P ++ firstn (l - 8 - length P) Q) by (rewrite firstn_app; f_equal; apply firstn_all2; lia).
  assert (R1 : forall Z, read_elems c1 (length (pp1 k)) (P ++ Z) = Ok (pp1 k)) by (intros Z; apply (read_back c1 X1 (pp1 k) 0 [] Z); cbn; lia).
  rewrite E2, S8, R1. cbn [bind].
  assert (S9 : skipn (8 + esize c1 * length (pp1 k)) (A ++ B ++ P ++ firstn (l - 8 - length P) Q) = firstn (l - 8 - length P) Q).
  { rewrite !app_assoc, skipn_app, !app_length, LA, LB, LP, skipn_all2 by (rewrite !app_length; lia). now replace (8 + esize c1 * length (pp1 k) - (4 + 4 + esize c1 * length (pp1 k)))%nat with 0%nat by lia. }
  rewrite S9. assert (R2 : read_elems c2 (length (pp2 k)) (firstn (l - 8 - length P) Q) = Panic) by (apply (read_cut c2 X2 (pp2 k) 0 []); [cbn; lia|lia]). now rewrite R2.
Qed.

(** The Lagrange parameters written for a size are the ones loaded for it; an absent file or an
    element that does not decode means that there are none. *)
Theorem C65_lagrange_loaded (v : list G1) junk (bases : nat -> option (list N)) size : (N.of_nat (length v) < 2 ^ 32)%N ->
  bases size = Some (u32_bytes (length v) ++ flat_map (enc c1) v ++ junk) ->
  load_lagrange (G2 := G2) c1 bases size = Ok (Some {| pp1 := v; pp2 := [] |}).
Proof. now apply lagrange_back. Qed.
Theorem C65_lagrange_absent (bases : nat -> option (list N)) size : bases size = None -> load_lagrange (G2 := G2) c1 bases size = Ok None.
Proof. intros E. unfold load_lagrange. now rewrite E. Qed.
Theorem C65_lagrange_undecodable (v : list G1) bad junk (bases : nat -> option (list N)) size count : (N.of_nat count < 2 ^ 32)%N -> (length v < count)%nat ->
  length bad = esize c1 -> dec c1 bad = Err ->
  bases size = Some (u32_bytes count ++ flat_map (enc c1) v ++ bad ++ junk) -> load_lagrange (G2 := G2) c1 bases size = Ok None.
Proof.
  intros H Hc Lb Eb E. unfold load_lagrange. rewrite E.
  assert (E4 := slice_mid [] (u32_bytes count) (flat_map (enc c1) v ++ bad ++ junk) 0 4 eq_refl ltac:(now rewrite u32_len)). cbn [app] in E4. rewrite E4. cbn [bind]. rewrite u32_back by exact H.
  assert (R : forall l k pre c, length pre = (4 + esize c1 * k)%nat -> (length l < c)%nat -> read_lagrange c1 (seq k c) (pre ++ flat_map (enc c1) l ++ bad ++ junk) = Ok None).
  { induction l as [|a l IH]; intros k pre [|c] L Hl; cbn [length] in Hl; try lia; cbn [seq read_lagrange flat_map].
    - cbn [app]. rewrite (slice_mid pre bad) by lia. cbn [bind]. now rewrite Eb.
    - rewrite <- app_assoc. rewrite (slice_mid pre (enc c1 a)) by (rewrite ?(proj1 (X1 a)); lia). cbn [bind]. rewrite (proj2 (X1 a)).
      replace (pre ++ enc c1 a ++ flat_map (enc c1) l ++ bad ++ junk) with ((pre ++ enc c1 a) ++ flat_map (enc c1) l ++ bad ++ junk) by now rewrite <- app_assoc.
      rewrite IH by (rewrite ?app_length, ?(proj1 (X1 a)), ?L; lia). reflexivity. }
  rewrite R by (rewrite ?u32_len; lia). reflexivity.
Qed.
End Files.

(** ** Lagrange parameters change nothing but the time *)
Section Lagrange.
Context {F : PField} {G1 G2 : Mod F} (base1 : G1) (base2 : G2) (draw : list (tmsg G1) -> F) (cdraw : nat -> list (tmsg G1) -> F) (gen : F) (order : N).
Context (gs : list (gate F)) (nv N : nat) (s : F) (lag : option (kzg G1 G2)) (ks : list F) (wm : F).
Notation n := (length gs).
Notation m := (quot_eval_dom_size n).
Hypothesis (Sn : supported n) (Sm : supported m) (Bm : (N.of_nat m < 2 ^ 32)%N).
Hypothesis (Hr : nth_root_of_unity gen order m = Ok (Some wm)) (Pm : primitive m wm).
Hypothesis (Lk : length ks = 5%nat) (Ck : fpow (nth 1 ks f0) m <> f1) (HN : (n + 2 <= N)%nat).
Hypothesis (Hlag : lagrange_ready base1 s n (fpow wm (m / n)) (usable lag n)).
Hypothesis (Hw : forall g, In g gs -> wire_lt nv g).
(** The same preprocessed parameters ... *)
Theorem C65_lagrange_same_parameters : exists pk,
  indexer gen order gs nv (setup base1 base2 N s) lag ks = Ok pk /\ indexer gen order gs nv (setup base1 base2 N s) None ks = Ok pk.
Proof.
  destruct (C36_total nv (wires gs) (wires_lt nv gs Hw)) as [perm Hp].
  exists (pk0 base1 gs s ks wm perm). split; apply (indexer_ok base1 base2); auto. exact I.
Qed.
(** ... and with them the same proof (or the same refusal) for every witness, every random
    tape and every transcript. *)
Theorem C65_lagrange_same_proof pk rnd t w : indexer gen order gs nv (setup base1 base2 N s) lag ks = Ok pk ->
  prover draw cdraw rnd t (setup base1 base2 N s) lag gs nv pk w = prover draw cdraw rnd t (setup base1 base2 N s) None gs nv pk w.
Proof.
  intros E. destruct (C36_total nv (wires gs) (wires_lt nv gs Hw)) as [perm Hp].
  rewrite (indexer_ok base1 base2 gen order gs nv N s lag ks wm perm) in E by auto. apply Ok_inj in E. subst pk.
  apply (prover_same base1 base2 draw cdraw gs nv N s lag ks wm); auto.
Qed.
End Lagrange.

(** ** Verifier parameters *)
Section Stored.
Context {F : PField} {G1 G2 GT : Mod F} (e : G1 -> G2 -> GT) (gen : F) (order : N) (draw : list (tmsg G1) -> F) (cdraw : nat -> list (tmsg G1) -> F).
Context (c1 : codec G1) (c2 : codec G2) (cc : codec (kzg G1 G2)) (cs : codec (csys F * vparams (F := F) G1)) (ct : codec (list (list (list N)))).
Notation vset := (vset (F := F) G1 G2).
Lemma diff_shrunk (k k' : kzg G1 G2) a b c d u : KzgModel.shrink k = Ok k' -> batch_verify_diff_points e k' a b c d u = batch_verify_diff_points e k a b c d u.
Proof. unfold KzgModel.shrink, batch_verify_diff_points. destruct (pp1 k) as [|g r]; [discriminate|]. destruct (pp2 k) as [|h0 [|h1 q]]; try discriminate. intros E. apply Ok_inj in E. subst k'. reflexivity. Qed.
Lemma verify_pcs (v v' : vset) : KzgModel.shrink (vs_pcs v) = Ok (vs_pcs v') -> s_size (vs_cs v') = s_size (vs_cs v) -> vs_vk v' = vs_vk v ->
  forall t pi pf, verify_with e draw cdraw v' t pi pf = verify_with e draw cdraw v t pi pf.
Proof.
  intros E S V t pi pf. unfold verify_with, verifier. rewrite S, V. destruct (compute_challenges cdraw _ _ _) as [ch t1].
  apply bind_ext. intros zl _. apply bind_ext. intros piz _. apply bind_ext. intros r _. apply bind_ext. intros cm_r _.
  destruct (batch draw t1 _ _ _ _) as [[comm w] t2]. now apply diff_shrunk.
Qed.
(** Reducing parameters to what a verifier needs changes no verdict on any proof. *)
Theorem C65_shrink_same_verdict (v v' : vset) : shrink_params v = Ok v' ->
  forall t pi pf, verify_with e draw cdraw v' t pi pf = verify_with e draw cdraw v t pi pf.
Proof.
  unfold shrink_params. intros H. destruct (KzgModel.shrink (vs_pcs v)) as [k| |] eqn:E; try discriminate. cbn [rmap] in H. apply Ok_inj in H. subst v'. now apply verify_pcs.
Qed.
(** It succeeds on the parameters of every setup; reducing again changes nothing; the reduced
    constraint system is refused by the prover. *)
Theorem C65_shrink_total (v : vset) base1 base2 N s : vs_pcs v = setup base1 base2 N s ->
  exists v', shrink_params v = Ok v' /\ shrink_params v' = Ok v' /\ length (pp1 (vs_pcs v')) = 1%nat /\ length (pp2 (vs_pcs v')) = 2%nat /\ s_gates (vs_cs v') = [] /\
  forall (p : pset (F := F) G1 G2) rnd t w, prove_with draw cdraw p (vs_cs v') rnd t w = Err.
Proof. intros E. unfold shrink_params. rewrite E. eexists. split; [reflexivity|]. repeat split. Qed.

Section Load.
Context (Xc : keeps cc) (Xs : keeps cs) (Xt : keeps ct).
Context (srs : option (list N)) (bases : nat -> option (list N)) (ks : list F) (circuit : nat -> nat -> res (list (gate F) * nat)).
Notation created := (create gen order c1 c2 srs bases ks circuit).
Lemma created_pcs i j v : created i j = Ok v -> exists bs, srs = Some bs /\ kzg_from_bytes c1 c2 bs = Ok (vs_pcs v).
Proof.
  unfold create, make. destruct srs as [bs|]; [|discriminate]. intros H. apply bind_ok in H. destruct H as [c [_ H]]. exists bs. split; [reflexivity|].
  destruct (kzg_from_bytes c1 c2 bs) as [k| |]; try discriminate. cbn [bind] in H. f_equal.
  destruct (load_lagrange c1 bases (length (fst c))) as [lag| |]; try discriminate. cbn [bind] in H.
  destruct (unwrap (indexer gen order (fst c) (snd c) k lag ks)) as [pk| |]; try discriminate. cbn [bind rmap] in H. apply Ok_inj in H. subst v. reflexivity.
Qed.
Lemma unwrap_ok {A} (x : res A) a : unwrap x = Ok a -> x = Ok a. Proof. now destruct x. Qed.
Lemma seq_at k d i : (i < d)%nat -> nth_error (seq k d) i = Some (k + i)%nat.
Proof. intros H. rewrite nth_error_nth' with (d := 0%nat) by (rewrite seq_length; exact H). now rewrite seq_nth. Qed.
(** The parameters read from the two generated files give, for every supported number of
    inputs and outputs, the verdicts of the parameters created on the spot. *)
Theorem C65_load_is_create common specific mk i j : gen_transfer_vk cc cs ct created = Ok (common, specific) -> (1 <= i <= 6)%nat -> (1 <= j <= 6)%nat ->
  exists v v', created i j = Ok v /\ load cc cs ct (Some common) (Some specific) mk i j = Ok v' /\
  forall t pi pf, verify_with e draw cdraw v' t pi pf = verify_with e draw cdraw v t pi pf.
Proof.
  intros H Hi Hj. unfold gen_transfer_vk in H. apply bind_ok in H. destruct H as [v1 [E1 H]]. apply bind_ok in H. destruct H as [cv [E2 H]]. apply bind_ok in H. destruct H as [table [E3 H]].
  apply Ok_inj in H. injection H as <- <-. apply unwrap_ok in E1. apply unwrap_ok in E2. unfold split_params in E2. destruct (KzgModel.shrink (vs_pcs v1)) as [k1| |] eqn:K1; try discriminate. cbn [rmap] in E2. apply Ok_inj in E2. subst cv. cbn [fst].
  destruct (mapM_at _ _ _ (i - 1) i E3) as [row [R1 R2]]. { rewrite seq_at by (unfold MAX_ANONYMOUS_RECORD_NUMBER; lia). f_equal. lia. }
  destruct (mapM_at _ _ _ (j - 1) j R2) as [b [B1 B2]]. { rewrite seq_at by (unfold MAX_ANONYMOUS_RECORD_NUMBER; lia). f_equal. lia. }
  apply bind_ok in B2. destruct B2 as [v [Ev B2]]. apply bind_ok in B2. destruct B2 as [sp [Es B2]]. apply Ok_inj in B2. subst b. apply unwrap_ok in Ev. apply unwrap_ok in Es.
  unfold split_params in Es. destruct (KzgModel.shrink (vs_pcs v)) as [k| |] eqn:K; try discriminate. cbn [rmap] in Es. apply Ok_inj in Es. subst sp. cbn [snd] in *.
  destruct (created_pcs _ _ _ E1) as [bs [Eb P1]]. destruct (created_pcs _ _ _ Ev) as [bs' [Eb' P2]]. rewrite Eb in Eb'. injection Eb' as <-. rewrite P1 in P2. apply Ok_inj in P2. rewrite P2 in K1. rewrite K1 in K. apply Ok_inj in K. subst k1.
  exists v, (mkVs k (shrink_cs (vs_cs v)) (vs_vk v)). split; [exact Ev|]. split; [|now apply verify_pcs].
  unfold load. destruct (Nat.ltb_spec MAX_ANONYMOUS_RECORD_NUMBER j) as [Y|_]; [unfold MAX_ANONYMOUS_RECORD_NUMBER in Y; lia|]. destruct (Nat.ltb_spec MAX_ANONYMOUS_RECORD_NUMBER i) as [Y|_]; [unfold MAX_ANONYMOUS_RECORD_NUMBER in Y; lia|]. cbn [orb].
  rewrite Xc. cbn [bind]. rewrite Xt. cbn [bind unwrap].
  destruct i as [|i]; [lia|]. destruct j as [|j]; [lia|]. replace (S i - 1)%nat with i in R1 by lia. replace (S j - 1)%nat with j in B1 by lia.
  unfold idx. rewrite R1. cbn [bind]. rewrite B1. cbn [bind]. rewrite Xs. reflexivity.
Qed.
(** The files exist as soon as all parameters can be created. *)
Theorem C65_files_generated : (forall i j, (1 <= i <= 6)%nat -> (1 <= j <= 6)%nat -> exists v, created i j = Ok v /\ exists k, KzgModel.shrink (vs_pcs v) = Ok k) ->
  exists common specific, gen_transfer_vk cc cs ct created = Ok (common, specific).
Proof.
  clear e draw cdraw. intros H. assert (M : forall A B (f : A -> res B) l, (forall a, In a l -> exists b, f a = Ok b) -> exists r, Base.mapM f l = Ok r).
  { intros A B f. induction l as [|a l IH]; intros Hl; [now exists []|]. destruct (Hl a (or_introl eq_refl)) as [b Eb]. destruct IH as [r Er]; [intros x Hx; apply Hl; now right|].
    exists (b :: r). cbn [Base.mapM]. rewrite Eb. cbn [bind]. now rewrite Er. }
  unfold gen_transfer_vk. destruct (H 1%nat 1%nat ltac:(lia) ltac:(lia)) as [v [-> [k Ek]]]. cbn [unwrap bind]. unfold split_params at 1. rewrite Ek. cbn [rmap unwrap bind].
  destruct (M _ _ (fun i => mapM (fun j => bind (unwrap (created i j)) (fun v => bind (unwrap (split_params v)) (fun s => Ok (enc cs (snd s))))) (seq 1 MAX_ANONYMOUS_RECORD_NUMBER)) (seq 1 MAX_ANONYMOUS_RECORD_NUMBER)) as [table Et].
  { intros i Hi. apply in_seq in Hi. apply M. intros j Hj. apply in_seq in Hj. destruct (H i j ltac:(unfold MAX_ANONYMOUS_RECORD_NUMBER in Hi; lia) ltac:(unfold MAX_ANONYMOUS_RECORD_NUMBER in Hj; lia)) as [v' [-> [k' Ek']]]. cbn [unwrap bind]. unfold split_params. rewrite Ek'. cbn [rmap unwrap bind]. now eexists. }
  rewrite Et. cbn [bind]. do 2 eexists. reflexivity.
Qed.
End Load.
(** The same for the file of each of the four other circuits. *)
Theorem C65_load_one_is_create (cv : codec vset) (Xv : keeps cv) (mk mk' : res (pset (F := F) G1 G2)) bs : gen_vk cv mk = Ok bs ->
  exists p v', mk = Ok p /\ load_vk cv (Some bs) mk' = Ok v' /\ load_vk cv None mk = Ok (to_verifier p) /\
  forall t pi pf, verify_with e draw cdraw v' t pi pf = verify_with e draw cdraw (to_verifier p) t pi pf.
Proof.
  intros H. unfold gen_vk in H. apply bind_ok in H. destruct H as [p [E H]]. apply bind_ok in H. destruct H as [v' [E2 H]]. apply Ok_inj in H. subst bs. apply unwrap_ok in E. apply unwrap_ok in E2.
  exists p, v'. rewrite E. split; [reflexivity|]. split; [apply Xv|]. split; [reflexivity|]. intros t pi pf. now apply C65_shrink_same_verdict.
Qed.
(** Above six inputs or outputs loading is an error whatever the files are; with the files, no
    inputs or no outputs is a panic; without them it is creation. *)
Theorem C65_load_range common specific mk i j :
  ((6 < i)%nat \/ (6 < j)%nat -> load cc cs ct common specific mk i j = Err) /\
  ((i <= 6)%nat -> (j <= 6)%nat -> common = None \/ specific = None -> load cc cs ct common specific mk i j = mk i j) /\
  ((i = 0 /\ j <= 6)%nat \/ (j = 0 /\ i <= 6)%nat -> forall cb sb k table, common = Some cb -> specific = Some sb -> dec cc cb = Ok k -> dec ct sb = Ok table -> load cc cs ct common specific mk i j = Panic).
Proof.
  unfold load. change MAX_ANONYMOUS_RECORD_NUMBER with 6%nat. split; [|split].
  - intros H. destruct (Nat.ltb_spec 6 j) as [|Y]; [reflexivity|]. destruct (Nat.ltb_spec 6 i) as [|Y2]; [reflexivity|lia].
  - intros Hi Hj H. destruct (Nat.ltb_spec 6 j) as [|_]; [lia|]. destruct (Nat.ltb_spec 6 i) as [|_]; [lia|]. cbn [orb]. destruct H as [->| ->]; [reflexivity|now destruct common].
  - intros H cb sb k table -> -> Ec Et. destruct (Nat.ltb_spec 6 j) as [|_]; [lia|]. destruct (Nat.ltb_spec 6 i) as [|_]; [lia|]. cbn [orb]. rewrite Ec. cbn [bind]. rewrite Et. cbn [bind unwrap].
    destruct i as [|i], j as [|j]; try reflexivity. lia.
Qed.
End Stored.

(** ** A case: two gates over the field of 97 elements, files for every count, Lagrange
    parameters for two gates *)
Local Open Scope F_scope.
Section TwoLagrange.
Context {F : PField} {G1 G2 : Mod F} (base1 : G1).
Add Field Ftl : (f_th F).
Lemma two_lagrange (s : F) : (1 + 1 : F) <> 0 ->
  lagrange_params (G2 := G2) base1 s 2 (fopp 1) {| pp1 := [(((1 + s) * finv (1 + 1)) *: base1)%M; (((1 - s) * finv (1 + 1)) *: base1)%M]; pp2 := [] |}.
Proof.
  intros H2. split; [reflexivity|]. intros i p Hi Hp V. cbn [pp1]. unfold com. rewrite <- hv_value. pose proof (V 0%nat ltac:(lia)) as V0. pose proof (V 1%nat ltac:(lia)) as V1. rewrite <- hv_value in V0, V1. clear V.
  assert (X : exists a b, forall x, hv p x = a + b * x).
  { destruct p as [|a [|b [|c p]]]; cbn [length] in Hp; [exists 0, 0|exists a, 0|exists a, b|lia]; intros x; cbn [hv]; ring. }
  destruct X as [a [b X]]. rewrite X in V0, V1 |- *. cbn [fpow] in V0, V1.
  destruct i as [|[|i]]; [| |lia]; cbn [nth Nat.eqb] in *; f_equal.
  - assert (A : a = finv (1 + 1)) by (apply (fmul_cancel F (1 + 1)); [exact H2|]; transitivity ((a + b * 1) + (a + b * (fopp 1 * 1))); [ring|]; rewrite V0, V1; field; exact H2).
    assert (B : b = finv (1 + 1)) by (apply (fmul_cancel F (1 + 1)); [exact H2|]; transitivity ((a + b * 1) - (a + b * (fopp 1 * 1))); [ring|]; rewrite V0, V1; field; exact H2).
    rewrite A, B. field. exact H2.
  - assert (A : a = finv (1 + 1)) by (apply (fmul_cancel F (1 + 1)); [exact H2|]; transitivity ((a + b * 1) + (a + b * (fopp 1 * 1))); [ring|]; rewrite V0, V1; field; exact H2).
    assert (B : b = fopp (finv (1 + 1))) by (apply (fmul_cancel F (1 + 1)); [exact H2|]; transitivity ((a + b * 1) - (a + b * (fopp 1 * 1))); [ring|]; rewrite V0, V1; field; exact H2).
    rewrite A, B. field. exact H2.
Qed.
End TwoLagrange.

(** Self-delimiting encodings as lists of numbers. *)
Record ser (A : Type) := mkSer { put : A -> list N; pull : list N -> option (A * list N) }.
Arguments mkSer {A}. Arguments put {A}. Arguments pull {A}.
Definition fine {A} (s : ser A) : Prop := forall a r, pull s (put s a ++ r) = Some (a, r).
Definition serN : ser N := mkSer (fun n => [n]) (fun l => match l with n :: r => Some (n, r) | [] => None end).
Definition ser_map {A B} (f : A -> B) (g : B -> A) (s : ser A) : ser B := mkSer (fun b => put s (g b)) (fun l => option_map (fun x => (f (fst x), snd x)) (pull s l)).
Definition ser_pair {A B} (s : ser A) (t : ser B) : ser (A * B) :=
  mkSer (fun x => put s (fst x) ++ put t (snd x)) (fun l => match pull s l with Some (a, r) => option_map (fun x => ((a, fst x), snd x)) (pull t r) | None => None end).
Fixpoint pull_n {A} (s : ser A) (n : nat) (l : list N) : option (list A * list N) :=
  match n with
  | O => Some ([], l)
  | S n => match pull s l with Some (a, r) => option_map (fun x => (a :: fst x, snd x)) (pull_n s n r) | None => None end
  end.
Definition ser_list {A} (s : ser A) : ser (list A) :=
  mkSer (fun l => N.of_nat (length l) :: flat_map (put s) l) (fun l => match l with n :: r => pull_n s (N.to_nat n) r | [] => None end).
Lemma fineN : fine serN. Proof. intros a r. reflexivity. Qed.
Lemma fine_map {A B} (f : A -> B) g s : (forall b, f (g b) = b) -> fine s -> fine (ser_map f g s).
Proof. intros I H b r. cbn. rewrite H. cbn. now rewrite I. Qed.
Lemma fine_pair {A B} (s : ser A) (t : ser B) : fine s -> fine t -> fine (ser_pair s t).
Proof. intros H1 H2 [a b] r. cbn. rewrite <- app_assoc, H1, H2. reflexivity. Qed.
Lemma fine_list {A} (s : ser A) : fine s -> fine (ser_list s).
Proof.
  intros H l r. cbn. rewrite Nat2N.id. induction l as [|a l IH]; [reflexivity|]. cbn [length pull_n flat_map]. rewrite <- app_assoc, H, IH. reflexivity.
Qed.
Definition codec_of {A} (s : ser A) : codec A := mkCodec A (put s) (fun l => match pull s l with Some (a, []) => Ok a | _ => Err end) 0.
Lemma keeps_of {A} (s : ser A) : fine s -> keeps (codec_of s).
Proof. intros H a. cbn. rewrite <- (app_nil_r (put s a)), H. reflexivity. Qed.
Section Ser.
Context (F : PField).
Definition serF : ser F := ser_map (fun n => fofZ (Z.of_N n)) (fun x => Z.to_N (toZ x)) serN.
Definition sernat : ser nat := ser_map N.to_nat N.of_nat serN.
Definition serbool : ser bool := ser_map (fun n => N.eqb n 1) (fun b => if b then 1%N else 0%N) serN.
Definition seropt : ser (option nat) := ser_map (fun l => match l with [] => None | x :: _ => Some x end) (fun o => match o with None => [] | Some x => [x] end) (ser_list sernat).
Definition sergate : ser (gate F) :=
  ser_map (fun x => let l := fst (fst (fst x)) in let w := snd (fst (fst x)) in
      mkGate (nth 0 l 0) (nth 1 l 0) (nth 2 l 0) (nth 3 l 0) (nth 4 l 0) (nth 5 l 0) (nth 6 l 0) (nth 7 l 0) (nth 8 l 0) (nth 9 l 0) (nth 10 l 0) (nth 11 l 0) (nth 12 l 0)
        (nth 0 w 0%nat) (nth 1 w 0%nat) (nth 2 w 0%nat) (nth 3 w 0%nat) (nth 4 w 0%nat) (snd (fst x)) (snd x))
    (fun g => ([q1 g; q2 g; q3 g; q4 g; qm1 g; qm2 g; qc g; qecc g; qh1 g; qh2 g; qh3 g; qh4 g; qo g], [w1 g; w2 g; w3 g; w4 g; wo g], g_bool g, g_pub g))
    (ser_pair (ser_pair (ser_pair (ser_list serF) (ser_list sernat)) serbool) seropt).
Definition serkzg : ser (kzg (self_mod F) (self_mod F)) :=
  ser_map (fun x => {| pp1 := fst x : list (self_mod F); pp2 := snd x : list (self_mod F) |}) (fun k => (pp1 k : list F, pp2 k : list F)) (ser_pair (ser_list serF) (ser_list serF)).
Definition sercs : ser (csys F) :=
  ser_map (fun x => mkCsys (fst (fst (fst x))) (snd (fst (fst x))) (snd (fst x)) (snd x)) (fun c => (s_gates c, s_vars c, s_size c, s_vonly c))
    (ser_pair (ser_pair (ser_pair (ser_list sergate) sernat) sernat) serbool).
Definition servk : ser (vparams (F := F) (self_mod F)) :=
  ser_map (fun x => let '(a, b, c, d, f, g, h, i) := x in mkVP (G1 := self_mod F) (a : list (self_mod F)) (b : list (self_mod F)) (c : self_mod F) d f g h i)
    (fun v => (cm_q v : list F, cm_s v : list F, cm_qb v : F, vk_k v, vk_root v, cs_size v, pub_idx v, lag_consts v))
    (ser_pair (ser_pair (ser_pair (ser_pair (ser_pair (ser_pair (ser_pair (ser_list serF) (ser_list serF)) serF) (ser_list serF)) serF) sernat) (ser_list sernat)) (ser_list serF)).
Lemma fineF : fine serF. Proof. apply fine_map; [|apply fineN]. intros x. rewrite Z2N.id by apply toZ_range. apply fofZ_toZ. Qed.
Lemma finenat : fine sernat. Proof. apply fine_map; [|apply fineN]. intros x. apply Nat2N.id. Qed.
Lemma finebool : fine serbool. Proof. apply fine_map; [|apply fineN]. now intros []. Qed.
Lemma fineopt : fine seropt. Proof. apply fine_map; [|apply fine_list, finenat]. now intros []. Qed.
Lemma finegate : fine sergate. Proof. apply fine_map; [now intros []|]. repeat apply fine_pair; auto using fine_list, fineF, finenat, finebool, fineopt. Qed.
Lemma finekzg : fine serkzg. Proof. apply fine_map; [now intros []|]. repeat apply fine_pair; auto using fine_list, fineF. Qed.
Lemma finecs : fine sercs. Proof. apply fine_map; [now intros []|]. repeat apply fine_pair; auto using fine_list, finegate, finenat, finebool. Qed.
Lemma finevk : fine servk. Proof. apply fine_map; [now intros []|]. repeat apply fine_pair; auto using fine_list, fineF, finenat. Qed.
(** One byte per element. *)
Definition byteF : codec F := mkCodec F (fun x => [Z.to_N (toZ x)]) (fun l => match l with [n] => if N.ltb n (Z.to_N (pchar F)) then Ok (fofZ (Z.of_N n)) else Err | _ => Err end) 1.
Lemma exactF : exact byteF.
Proof.
  intros x. split; [reflexivity|]. cbn [dec enc byteF]. pose proof (toZ_range F x) as R. destruct (N.ltb_spec (Z.to_N (toZ x)) (Z.to_N (pchar F))) as [_|Y]; [|lia]. rewrite Z2N.id by lia. now rewrite fofZ_toZ.
Qed.
End Ser.

Section Case.
Let z (x : Z) : P97 := fofZ x.
Let G := self_mod P97.
Let e (a b : G) : G := fmul (a : P97) b.
Let K := setup (G1 := G) (G2 := G) (z 1 : G) (z 1 : G) 6 (z 20).
Let mulgate : gate P97 := mkGate (z 0) (z 0) (z 0) (z 0) (z 1) (z 0) (z 0) (z 0) (z 0) (z 0) (z 0) (z 0) (z 1) 1 2 0 0 3 false None.
Let pubgate : gate P97 := mkGate (z 0) (z 0) (z 0) (z 0) (z 0) (z 0) (z 0) (z 0) (z 0) (z 0) (z 0) (z 0) (z 1) 0 0 0 0 3 false (Some 3%nat).
Let gs := [mulgate; pubgate].
Let ks := [z 1; z 5; z 7; z 10; z 13].
Let c1 : codec G := byteF P97.
Let srs := Some (kzg_to_bytes c1 c1 K ++ [9; 9]%N).
Let bases (n : nat) : option (list N) := if Nat.eqb n 2 then Some (u32_bytes 2 ++ [59; 39]%N) else None.
Let circuit (_ _ : nat) : res (list (gate P97) * nat) := Ok (gs, 4%nat).
Let cc := codec_of (serkzg P97).
Let cs := codec_of (ser_pair (sercs P97) (servk P97)).
Let ct := codec_of (ser_list (ser_list (ser_list serN))).
Let cv : codec (vset (F := P97) G G) := codec_of (ser_map (fun x => mkVs (fst (fst x)) (snd (fst x)) (snd x)) (fun v => (vs_pcs v, vs_cs v, vs_vk v)) (ser_pair (ser_pair (serkzg P97) (sercs P97)) (servk P97))).
Let created := create (z 5) 97 c1 c1 srs bases ks circuit.
Example C65_case_files : exact c1 /\ keeps cc /\ keeps cs /\ keeps ct /\ keeps cv /\ kzg_from_bytes (G1 := G) (G2 := G) c1 c1 (kzg_to_bytes c1 c1 K ++ [9; 9]%N) = Ok K /\
  (exists common specific, gen_transfer_vk cc cs ct created = Ok (common, specific)) /\ exists bs, gen_vk cv (make (z 5) 97 c1 c1 srs bases ks (gs, 4%nat)) = Ok bs.
Proof.
  split; [apply exactF|]. split; [apply keeps_of, finekzg|]. split; [apply keeps_of, fine_pair; [apply finecs|apply finevk]|]. split; [apply keeps_of; auto using fine_list, fineN|].
  split; [apply keeps_of, fine_map; [now intros []|]; apply fine_pair; [apply fine_pair|]; [apply finekzg|apply finecs|apply finevk]|].
  split; [apply (C65_srs_round_trip c1 c1 (exactF P97) (exactF P97)); reflexivity|].
  assert (X : match created 1 1 with Ok v => match KzgModel.shrink (vs_pcs v) with Ok _ => true | _ => false end | _ => false end = true) by (vm_compute; reflexivity).
  split.
  2: { change (created 1 1) with (rmap to_verifier (make (z 5) 97 c1 c1 srs bases ks (gs, 4%nat))) in X. unfold gen_vk. destruct (make (z 5) 97 c1 c1 srs bases ks (gs, 4%nat)) as [p| |]; [|discriminate X..].
    cbn [rmap unwrap bind] in *. unfold shrink_params. destruct (KzgModel.shrink (vs_pcs (to_verifier p))) as [k| |]; [|discriminate X..]. cbn [rmap unwrap bind]. now eexists. }
  apply (C65_files_generated (z 5) 97 c1 c1 cc cs ct srs bases ks circuit). intros i j _ _.
  assert (Y : create (z 5) 97 c1 c1 srs bases ks circuit i j = created 1 1) by (unfold created, create, circuit; reflexivity).
  rewrite Y. clear Y. destruct (created 1 1) as [v| |]; [|discriminate X..]. exists v. split; [reflexivity|].
  destruct (KzgModel.shrink (vs_pcs v)) as [k| |]; [|discriminate X..]. now exists k.
Qed.
Example C65_case_lagrange : load_lagrange (G2 := G) c1 bases 2 = Ok (Some {| pp1 := [z 59; z 39] : list G; pp2 := [] |}) /\
  lagrange_ready (G2 := G) (z 1 : G) (z 20) 2 (z 96) (usable (Some {| pp1 := [z 59; z 39] : list G; pp2 := [] |}) 2) /\
  load_lagrange (G2 := G) c1 (fun _ => Some (u32_bytes 2 ++ [59; 99]%N)) 2 = Ok None /\ load_lagrange (G2 := G) c1 bases 4 = Ok None.
Proof.
  assert (E9 : z 96 = fopp 1) by (apply feqb_true; vm_compute; reflexivity).
  assert (E1 : (z 59 : G) = (((1 + z 20) * finv (1 + 1)) *: (z 1 : G))%M) by (apply feqb_true; vm_compute; reflexivity).
  assert (E2 : (z 39 : G) = (((1 - z 20) * finv (1 + 1)) *: (z 1 : G))%M) by (apply feqb_true; vm_compute; reflexivity).
  split; [|split; [|split]].
  - apply (C65_lagrange_loaded (G2 := G) c1 (exactF P97) ([z 59; z 39] : list G) []); reflexivity.
  - change (usable (Some {| pp1 := [z 59; z 39] : list G; pp2 := [] |}) 2) with (Some {| pp1 := [z 59; z 39] : list G; pp2 := [] : list G |}).
    apply C22_lagrange_parameters; [exists 1%nat; now left| |reflexivity|].
    + split; [apply feqb_true; vm_compute; reflexivity|]. intros j Hj. assert (j = 1%nat) by lia. subst j. apply feqb_neq. vm_compute. reflexivity.
    + rewrite E9, E1, E2. apply (two_lagrange (G1 := G) (G2 := G)). apply feqb_neq. vm_compute. reflexivity.
  - apply (C65_lagrange_undecodable (G2 := G) c1 (exactF P97) ([z 59] : list G) [99%N] [] _ 2 2); try reflexivity. cbn. lia.
  - now apply C65_lagrange_absent.
Qed.
End Case.

Print Assumptions C65_srs_round_trip. Print Assumptions C65_srs_accepted. Print Assumptions C65_truncated_srs.
Print Assumptions C65_lagrange_loaded. Print Assumptions C65_lagrange_absent. Print Assumptions C65_lagrange_undecodable.
Print Assumptions C65_lagrange_same_parameters. Print Assumptions C65_lagrange_same_proof.
Print Assumptions C65_shrink_same_verdict. Print Assumptions C65_shrink_total.
Print Assumptions C65_load_is_create. Print Assumptions C65_load_one_is_create. Print Assumptions C65_files_generated. Print Assumptions C65_load_range.
