(** C27-C30 and the ElGamal part of C46. *)
From Coq Require Import List Arith NArith Bool Lia Field Ring.
From Verif Require Import Base Field PField SigmaModel SigmaSpec SigmaProofs SigmaLemmas.
Import ListNotations.
Local Open Scope F_scope.
Local Open Scope M_scope.

Section Props.
Context {F : Field} {G : Mod F}.
Add Field Fp : (f_th F).

(** ** C27: the linear sigma protocol.
    [chal] is the hash behind the transcript, [t] the transcript so far, [g], [g'] the
    random streams of the prover and of the verifier. *)
(** Honest proofs are accepted. *)
Theorem C27_honest_accepted (chal : oracle) (t : transcript) (g g' : rng) (elems : list G) lhs rhs w :
  well_formed elems lhs (length w) -> solves elems lhs rhs w ->
  exists p t' g1, sigma_prove chal t g elems lhs w = Ok (p, t', g1) /\ sigma_verify chal t g' elems lhs rhs p = Ok tt.
Proof.
  intros W S. rewrite prove_eq by exact W. do 3 eexists. split; [reflexivity|].
  rewrite verify_eq.
  - apply meqb_ok, wsum_0. unfold sigma_chal. cbn [s_coms s_resps]. apply honest_defects, S.
  - split; [apply S|]. cbn [s_coms]. unfold honest_coms. rewrite map_length. symmetry. apply S.
Qed.
(** The row equation number [j]: the responses against challenge and commitment. *)
Definition row_holds (elems : list G) lhs rhs (p : sigma_proof) (c : F) (j : nat) : Prop :=
  exists row r com, nth_error lhs j = Some row /\ nth_error rhs j = Some r /\ nth_error (s_coms p) j = Some com /\
    lin elems row (s_resps p) = c *: nth r elems m0 + com.
Lemma defects_nth (elems : list G) resps c : forall lhs rhs coms j a, nth_error (defects elems resps c lhs rhs coms) j = Some a ->
  exists row r com, nth_error lhs j = Some row /\ nth_error rhs j = Some r /\ nth_error coms j = Some com /\ a = defect elems resps c row r com.
Proof.
  induction lhs as [|row lhs IH]; intros [|r rhs] [|com coms] [|j] a E; try discriminate; cbn in E.
  - injection E as <-. exists row, r, com. repeat split.
  - now apply (IH rhs coms j).
Qed.
Lemma defects_len (elems : list G) resps c : forall lhs rhs coms, length lhs = length rhs -> length rhs = length coms ->
  length (defects elems resps c lhs rhs coms) = length lhs.
Proof. induction lhs as [|row lhs IH]; intros [|r rhs] [|com coms] L1 L2; try discriminate; cbn in *; [reflexivity|]. f_equal. apply IH; lia. Qed.
Lemma defect_row (elems : list G) resps c row r com : defect elems resps c row r com = m0 <-> lin elems row resps = c *: nth r elems m0 + com.
Proof.
  unfold defect. rewrite msub_0. split; intros X; [rewrite <- X; module_eq|rewrite X; module_eq].
Qed.
Lemma rows_hold (elems : list G) lhs rhs p c : fits lhs rhs p ->
  (Forall (fun a => a = m0) (defects elems (s_resps p) c lhs rhs (s_coms p)) <-> forall j, (j < length lhs)%nat -> row_holds elems lhs rhs p c j).
Proof.
  intros [L1 L2]. split.
  - intros D j Hj. rewrite <- (defects_len elems (s_resps p) c _ _ _ L1 L2) in Hj. destruct (nth_error (defects elems (s_resps p) c lhs rhs (s_coms p)) j) as [a|] eqn:E; [|apply nth_error_None in E; lia].
    rewrite Forall_forall in D. pose proof (D a (nth_error_In _ _ E)) as Z. destruct (defects_nth _ _ _ _ _ _ _ _ E) as [row [r [com [A [B [C D']]]]]].
    exists row, r, com. repeat split; auto. apply defect_row. congruence.
  - intros X. apply Forall_forall. intros a Ha. apply In_nth_error in Ha. destruct Ha as [j E].
    destruct (defects_nth _ _ _ _ _ _ _ _ E) as [row [r [com [A [B [C ->]]]]]].
    destruct (X j) as [row' [r' [com' [A' [B' [C' E']]]]]]; [apply nth_error_Some; congruence|].
    apply defect_row. congruence.
Qed.
(** The verifier's randomness: a proof is accepted whatever the verifier draws exactly
    when every row equation holds ... *)
Theorem C27_exact_acceptance (chal : oracle) (t : transcript) (elems : list G) lhs rhs p :
  length lhs = length rhs -> length rhs = length (s_coms p) ->
  ((forall g', sigma_verify chal t g' elems lhs rhs p = Ok tt) <->
   forall j, (j < length lhs)%nat -> row_holds elems lhs rhs p (sigma_chal chal t elems p) j).
Proof.
  intros L1 L2. assert (Hf : fits lhs rhs p) by (split; assumption). rewrite <- rows_hold by exact Hf. split.
  - intros X. apply wsum_all. intros g. specialize (X g). rewrite verify_eq in X by exact Hf. now apply meqb_ok in X.
  - intros X g. rewrite verify_eq by exact Hf. apply meqb_ok, wsum_0, X.
Qed.
(** ... and a proof with a false row is accepted for at most one value of that row's
    draw, the others being fixed. *)
Theorem C27_false_row_one_draw (chal : oracle) (t : transcript) (elems : list G) lhs rhs p j (g g' : rng) :
  length lhs = length rhs -> length rhs = length (s_coms p) -> (j < length lhs)%nat ->
  ~ row_holds elems lhs rhs p (sigma_chal chal t elems p) j ->
  (forall i, i <> j -> g i = g' i) ->
  sigma_verify chal t g elems lhs rhs p = Ok tt -> sigma_verify chal t g' elems lhs rhs p = Ok tt -> g j = g' j.
Proof.
  intros L1 L2 Hj N E V V'. assert (Hf : fits lhs rhs p) by (split; assumption).
  rewrite verify_eq in V, V' by exact Hf. apply meqb_ok in V, V'.
  destruct (f_dec (g j) (g' j)) as [Q|Q]; [exact Q|]. exfalso. apply N.
  rewrite <- (defects_len elems (s_resps p) (sigma_chal chal t elems p) _ _ _ L1 L2) in Hj.
  destruct (nth_error (defects elems (s_resps p) (sigma_chal chal t elems p) lhs rhs (s_coms p)) j) as [a|] eqn:Ea; [|apply nth_error_None in Ea; lia].
  assert (Z : a = m0). { apply (wsum_two g g' _ j a Ea E); auto. }
  destruct (defects_nth _ _ _ _ _ _ _ _ Ea) as [row [r [com [A [B [C D']]]]]].
  exists row, r, com. repeat split; auto. apply defect_row. congruence.
Qed.
(** Special soundness: the same commitments accepted under two different challenges
    give a witness, computed by [extracted]. *)
Theorem C27_special_soundness (chal chal' : oracle) (t t' : transcript) (elems : list G) lhs rhs n p p' :
  length lhs = length rhs -> length rhs = length (s_coms p) -> (forall row, In row lhs -> length row = n) ->
  s_coms p = s_coms p' ->
  let c := sigma_chal chal t elems p in let c' := sigma_chal chal' t' elems p' in
  c <> c' ->
  (forall g, sigma_verify chal t g elems lhs rhs p = Ok tt) -> (forall g, sigma_verify chal' t' g elems lhs rhs p' = Ok tt) ->
  solves elems lhs rhs (extracted n (s_resps p) (s_resps p') c c').
Proof.
  intros L1 L2 W Ec c c' Hc V V'. apply (extract_solves elems n (s_resps p) (s_resps p') c c' Hc lhs rhs (s_coms p) L1 L2 W).
  - apply wsum_all. intros g. specialize (V g). rewrite verify_eq in V by (split; assumption). now apply meqb_ok in V.
  - apply wsum_all. intros g. specialize (V' g). rewrite verify_eq in V' by (split; congruence). apply meqb_ok in V'. rewrite Ec. exact V'.
Qed.
(** A proof with the wrong number of commitments makes the verifier panic. *)
Theorem C27_wrong_length_panics (chal : oracle) (t : transcript) (g : rng) (elems : list G) lhs rhs p :
  length rhs <> length (s_coms p) -> sigma_verify chal t g elems lhs rhs p = Panic.
Proof. intros N. apply verify_misfit. intros [_ X]. now apply N. Qed.

Context (B H : G).

(** ** C28: one message in a ciphertext and in a commitment. *)
(** Instance made from an honest proof of the messages [m] with randomness [r]. *)
Definition honest_instance (chal : oracle) (t : transcript) (i : pe_instance) : Prop :=
  exists g m r, length m = length (pi_cts i) /\ length r = length (pi_cts i) /\ length (pi_coms i) = length (pi_cts i) /\
    (forall j a b c d, nth_error m j = Some a -> nth_error r j = Some b -> nth_error (pi_cts i) j = Some c -> nth_error (pi_coms i) j = Some d ->
       same_message B H (pi_pk i) c d a b) /\
    pe_aggregate_prove B H chal t g m r (pi_pk i) (pi_cts i) (pi_coms i) = Ok (pi_proof i).
(** Making the proof succeeds. *)
Theorem C28_prover_succeeds (chal : oracle) t g m r pk cts coms :
  length m = length cts -> length r = length cts -> length coms = length cts ->
  (forall j a b c d, nth_error m j = Some a -> nth_error r j = Some b -> nth_error cts j = Some c -> nth_error coms j = Some d -> same_message B H pk c d a b) ->
  exists p, pe_aggregate_prove B H chal t g m r pk cts coms = Ok p /\ honest_instance chal t (mkPi pk cts coms p).
Proof.
  intros L1 L2 L3 S.
  assert (X : exists p, pe_aggregate_prove B H chal t g m r pk cts coms = Ok p).
  { unfold pe_aggregate_prove. rewrite L1, L2, L3, !Nat.eqb_refl. cbn [negb]. destruct (lc_scalars _ _ _) as [x t2].
    rewrite lc_ct_comb, lc_g_comb, !lc_s_dots.
    destruct (pe_prove_ok B H chal t2 g (dots x m) (dots x r) pk (comb_ct x cts) (comb x coms)) as [p [E _]]; [apply same_comb; auto; congruence|]. now exists p. }
  destruct X as [p E]. exists p. split; [exact E|]. exists g, m, r. cbn [pi_pk pi_cts pi_coms pi_proof]. auto.
Qed.
Lemma honest_eqs chal t i : honest_instance chal t i -> pi_fits i /\ Forall (fun a => a = m0) (pi_eqs B H chal t i).
Proof.
  intros [g [m [r [L1 [L2 [L3 [S E]]]]]]]. split; [unfold pi_fits; congruence|].
  unfold pe_aggregate_prove in E. rewrite L1, L2, L3, !Nat.eqb_refl in E. cbn [negb] in E.
  unfold pi_eqs, pi_challenge, pi_lc. destruct (lc_scalars _ _ _) as [x t2]. cbn [fst snd].
  rewrite lc_ct_comb, lc_g_comb, !lc_s_dots in *.
  destruct (pe_prove_ok B H chal t2 g (dots x m) (dots x r) (pi_pk i) (comb_ct x (pi_cts i)) (comb x (pi_coms i))) as [p [E' D]]; [apply same_comb; auto; congruence|].
  rewrite E' in E. apply Ok_inj in E. subst p. exact D.
Qed.
(** Honest proofs are accepted alone and in every batch, whatever the verifier draws. *)
Theorem C28_honest_accepted (chal : oracle) t g l :
  Forall (honest_instance chal t) l -> pe_batch_verify B H chal t g l = Ok tt.
Proof.
  intros Hl. rewrite pe_batch_eq.
  - apply meqb_ok. apply (proj2 (pe_bsum_all B H chal t l)). revert Hl. apply Forall_impl. intros i Hi. now apply honest_eqs.
  - revert Hl. apply Forall_impl. intros i Hi. now apply honest_eqs in Hi.
Qed.
Theorem C28_single_accepted (chal : oracle) t g g' m r pk ct com :
  same_message B H pk ct com m r -> exists p, pe_prove B H chal t g m r pk ct com = Ok p /\ pe_verify B H chal t g' pk ct com p = Ok tt.
Proof.
  intros S. destruct (pe_prove_ok B H chal t g m r pk ct com S) as [p [E D]]. exists p. split; [exact E|]. rewrite pe_verify_eq. apply meqb_ok. now apply wsum_0.
Qed.
(** The batch decides the conjunction: accepted whatever the verifier draws exactly
    when every proof alone is. *)
Theorem C28_batch_is_conjunction (chal : oracle) t l :
  (forall g, pe_batch_verify B H chal t g l = Ok tt) <->
  Forall (fun i => forall g, pe_aggregate_verify B H chal t g (pi_pk i) (pi_cts i) (pi_coms i) (pi_proof i) = Ok tt) l.
Proof.
  assert (K : forall l, (forall g, pe_batch_verify B H chal t g l = Ok tt) <-> Forall (fun i => pi_fits i /\ Forall (fun a => a = m0) (pi_eqs B H chal t i)) l).
  { clear l. intros l. split.
    - intros X. assert (Hf : Forall pi_fits l).
      { destruct (Forall_dec pi_fits (fun i => Nat.eq_dec _ _) l) as [y|n]; [exact y|]. specialize (X (fun _ => f0)). rewrite pe_batch_misfit in X by exact n. discriminate. }
      assert (Z : Forall (fun i => Forall (fun a => a = m0) (pi_eqs B H chal t i)) l).
      { apply pe_bsum_all. intros g. specialize (X g). rewrite pe_batch_eq in X by exact Hf. now apply meqb_ok in X. }
      rewrite Forall_forall in *. intros i Hi. split; auto.
    - intros X g. rewrite pe_batch_eq.
      + apply meqb_ok. apply (proj2 (pe_bsum_all B H chal t l)). revert X. apply Forall_impl. tauto.
      + revert X. apply Forall_impl. tauto. }
  rewrite K, !Forall_forall. split; intros X i Hi.
  - unfold pe_aggregate_verify. apply K. constructor; [|constructor]. destruct i. exact (X _ Hi).
  - specialize (X i Hi). unfold pe_aggregate_verify in X. rewrite K in X. destruct i. now inversion X.
Qed.
(** Special soundness: two proofs with the same commitments, accepted under different
    challenges for the same weights, give one message and one randomness opening both
    the weighted sum of the ciphertexts and that of the commitments. *)
Theorem C28_special_soundness (chal chal' : oracle) t pk cts coms p p' :
  let i := mkPi pk cts coms p in let i' := mkPi pk cts coms p' in
  let x := fst (pi_lc B H chal t i) in
  pe_e1 p = pe_e1 p' -> pe_c1 p = pe_c1 p' -> x = fst (pi_lc B H chal' t i') ->
  let c := pi_challenge B H chal t i in let c' := pi_challenge B H chal' t i' in
  c <> c' ->
  (forall g, pe_aggregate_verify B H chal t g pk cts coms p = Ok tt) -> (forall g, pe_aggregate_verify B H chal' t g pk cts coms p' = Ok tt) ->
  same_message B H pk (comb_ct x cts) (comb x coms) ((pe_z1 p - pe_z1 p') / (c - c'))%F ((pe_z2 p - pe_z2 p') / (c - c'))%F.
Proof.
  intros i i' x E1 E2 Ex c c' Hc V V'.
  assert (K : forall ch j, (forall g, pe_batch_verify B H ch t g [j] = Ok tt) -> Forall (fun a => a = m0) (pi_eqs B H ch t j)).
  { intros ch j X. assert (Hf : Forall pi_fits [j]).
    { destruct (Forall_dec pi_fits (fun i => Nat.eq_dec _ _) [j]) as [y|n]; [exact y|]. specialize (X (fun _ => f0)). rewrite pe_batch_misfit in X by exact n. discriminate. }
    assert (Z : Forall (fun i => Forall (fun a => a = m0) (pi_eqs B H ch t i)) [j]).
    { apply pe_bsum_all. intros g. specialize (X g). rewrite pe_batch_eq in X by exact Hf. now apply meqb_ok in X. }
    now inversion Z. }
  apply K in V. apply K in V'. unfold pi_eqs in V, V'. cbn [pi_pk pi_cts pi_coms pi_proof i i'] in V, V'.
  fold i i' in V, V'. fold x in V. fold c in V. rewrite <- Ex in V'. fold c' in V'. rewrite <- lc_ct_comb, <- lc_g_comb.
  apply (pe_extract B H pk _ _ p p' c c' Hc E1 E2 V V').
Qed.
(** From combinations to the single pairs: witnesses for weights [x] and for the same
    weights with the [j]-th one changed give a witness for pair [j]. *)
Lemma comb_change (x : list F) : forall (e : list G) j d a, nth_error x j <> None -> nth_error e j = Some a ->
  comb (firstn j x ++ (nth j x f0 + d)%F :: skipn (S j) x) e = comb x e + d *: a.
Proof.
  induction x as [|y x IH]; intros [|b e] [|j] d a Nx Ne; try (exfalso; apply Nx; reflexivity); try discriminate.
  - cbn in Ne. injection Ne as <-. cbn [firstn skipn app nth]. rewrite !comb_cons. module_eq.
  - cbn [firstn app nth]. change (skipn (S (S j)) (y :: x)) with (skipn (S j) x). rewrite !comb_cons, (IH e j d a) by assumption. module_eq.
Qed.
Theorem C28_each_pair (pk : G) cts coms (x : list F) j d ct com m r m' r' :
  d <> f0 -> (j < length x)%nat -> nth_error cts j = Some ct -> nth_error coms j = Some com ->
  same_message B H pk (comb_ct x cts) (comb x coms) m r ->
  (let x' := firstn j x ++ (nth j x f0 + d)%F :: skipn (S j) x in same_message B H pk (comb_ct x' cts) (comb x' coms) m' r') ->
  same_message B H pk ct com ((m' - m) / d)%F ((r' - r) / d)%F.
Proof.
  intros Hd Hj Hct Hcom [E O] [E' O']. apply nth_error_Some in Hj. destruct ct as [a b]. unfold encrypts, opens, comb_ct in *.
  assert (Ha : nth_error (map fst cts) j = Some a) by (rewrite nth_error_map, Hct; reflexivity).
  assert (Hb : nth_error (map snd cts) j = Some b) by (rewrite nth_error_map, Hct; reflexivity).
  rewrite (comb_change x (map fst cts) j d a Hj Ha), (comb_change x (map snd cts) j d b Hj Hb) in E'. rewrite (comb_change x coms j d com Hj Hcom) in O'.
  injection E as Ea Eb. injection E' as Ea' Eb'. rewrite Ea in Ea'. rewrite Eb in Eb'. rewrite O in O'.
  split; [unfold encrypts; f_equal|unfold opens]; apply (smul_cancel d _ _ Hd).
  - transitivity (r *: B + d *: a - r *: B); [module_eq|]. rewrite Ea'. module_prep. repeat split; field; exact Hd.
  - transitivity (m *: B + r *: pk + d *: b - (m *: B + r *: pk)); [module_eq|]. rewrite Eb'. module_prep. repeat split; field; exact Hd.
  - transitivity (m *: B + r *: H + d *: com - (m *: B + r *: H)); [module_eq|]. rewrite O'. module_prep. repeat split; field; exact Hd.
Qed.
(** The message is the ciphertext's only one. *)
Theorem C28_message_unique (pk : G) ct com m r m' r' :
  B <> m0 -> same_message B H pk ct com m r -> encrypts B pk ct m' r' -> m = m' /\ r = r'.
Proof.
  intros NB [E _] E'. unfold encrypts in *. rewrite E in E'. injection E' as Ea Eb.
  assert (K : forall a b : F, a *: B = b *: B -> a = b).
  { intros a b X. assert (Y : (a - b)%F *: B = m0) by (transitivity (a *: B - b *: B); [module_eq|now apply msub_0]).
    destruct (smul_eq_0 _ _ Y) as [Z|Z]; [now apply (fsub_0 F)|contradiction]. }
  apply K in Ea. subst r'. split; [|reflexivity]. apply K.
  transitivity (m *: B + r *: pk - r *: pk); [module_eq|]. rewrite Eb. module_eq.
Qed.
(** Different numbers of ciphertexts and commitments stop the verifier with a panic. *)
Theorem C28_length_mismatch_panics (chal : oracle) t g pk cts coms p :
  length cts <> length coms -> pe_aggregate_verify B H chal t g pk cts coms p = Panic.
Proof. intros N. unfold pe_aggregate_verify. apply pe_batch_misfit. intros X. inversion X as [|? ? Y _]. exact (N Y). Qed.

(** ** C29: commitments to one value. *)
Definition all_open (coms : list G) (v : F) (bl : list F) : Prop :=
  length coms = length bl /\ forall i c r, nth_error coms i = Some c -> nth_error bl i = Some r -> opens B H c v r.
Definition honest_cp (chal : oracle) (t : transcript) (i : list G * cpx_proof) : Prop :=
  exists g v bl, (2 <= length (fst i))%nat /\ all_open (fst i) v bl /\ cp_prove_multiple B H chal t g v (fst i) bl = Ok (snd i).
Lemma honest_cp_eqs (chal : oracle) t g v coms bl : (2 <= length coms)%nat -> all_open coms v bl ->
  exists p, cp_prove_multiple B H chal t g v coms bl = Ok p /\ cpx_shape coms p /\ Forall (fun a => a = m0) (cpx_eqs1 B H chal t coms p) /\
    match x_zero p with None => length coms = 2%nat | Some pz => length coms <> 2%nat /\ Forall (fun a => a = m0) (cpx_eqs2 B H chal t coms p pz) end.
Proof.
  intros L [Lb O]. destruct coms as [|c0 [|c1 coms]]; cbn in L; try lia. destruct bl as [|r0 [|r1 bl]]; try discriminate.
  unfold cp_prove_multiple. rewrite Lb, Nat.eqb_refl. cbn [negb orb].
  replace (length (r0 :: r1 :: bl) <? 2)%nat with false by (symmetry; apply Nat.ltb_ge; cbn; lia).
  pose proof (O 0%nat c0 r0 eq_refl eq_refl) as O0. pose proof (O 1%nat c1 r1 eq_refl eq_refl) as O1.
  destruct (cp_prove_ok B H chal (init_cp_multiple B H t (c0 :: c1 :: coms)) g v c0 r0 c1 r1 O0 O1) as [p [E D]]. rewrite E. cbn [bind].
  rewrite <- Lb. destruct (Nat.eqb_spec (length (c0 :: c1 :: coms)) 2) as [e|n].
  - eexists. split; [reflexivity|]. split; [split; [cbn; lia|cbn [x_zero]; tauto]|]. split; [exact D|exact e].
  - destruct (lc_scalars chal _ _) as [a t3] eqn:El.
    set (d := cp_d a (c0 :: c1 :: coms) c0).
    assert (Od : opens B H d f0 (cp_z a (r0 :: r1 :: bl) r0)) by (apply (cp_d_opens B H a (c0 :: c1 :: coms) (r0 :: r1 :: bl) v c0 r0 O0 Lb O)).
    assert (Oz : opens B H m0 f0 f0) by (unfold opens; module_eq).
    destruct (cp_prove_ok B H chal t3 (skipr 3 g) f0 d (cp_z a (r0 :: r1 :: bl) r0) m0 f0 Od Oz) as [pz [Ez Dz]].
    rewrite Ez. cbn [bind fst]. eexists. split; [reflexivity|]. split; [split; [cbn; lia|cbn [x_zero]; split; [discriminate|contradiction]]|].
    split; [exact D|]. cbn [x_zero]. split; [exact n|]. unfold cpx_eqs2, cpx_d, cpx_lc, cpx_t2, cpx_t1. cbn [x_eq nth]. rewrite El. cbn [fst snd]. exact Dz.
Qed.
(** Honest proofs for any number (at least two) of commitments are made and accepted. *)
Theorem C29_honest_accepted (chal : oracle) t g g' v coms bl :
  (2 <= length coms)%nat -> all_open coms v bl ->
  exists p, cp_prove_multiple B H chal t g v coms bl = Ok p /\ cp_verify_multiple B H chal t g' coms p = Ok tt.
Proof.
  intros L O. destruct (honest_cp_eqs chal t g v coms bl L O) as [p [E [Sh [D1 D2]]]]. exists p. split; [exact E|].
  apply (cp_multiple_all B H chal t coms p L). split; [exact D1|exact D2].
Qed.
Theorem C29_honest_batch_accepted (chal : oracle) t g l : Forall (honest_cp chal t) l -> cp_batch_verify B H chal t g l = Ok tt.
Proof.
  intros Hl. assert (K : Forall (fun i => cpx_shape (fst i) (snd i) /\ forall g, cpx_sum B H chal t g (fst i) (snd i) = m0) l).
  { revert Hl. apply Forall_impl. intros [coms p] [g0 [v [bl [L [O E]]]]]. cbn [fst snd] in *.
    destruct (honest_cp_eqs chal t g0 v coms bl L O) as [p' [E' [Sh [D1 D2]]]]. rewrite E' in E. apply Ok_inj in E. subst p'.
    split; [exact Sh|]. apply cpx_sum_all. split; [exact D1|]. destruct (x_zero p); [apply D2|exact I]. }
  rewrite cp_batch_eq.
  - apply meqb_ok. apply (proj2 (cp_bsum_all B H chal t l)). revert K. apply Forall_impl. tauto.
  - revert K. apply Forall_impl. tauto.
Qed.
(** The batch decides the conjunction. *)
Theorem C29_batch_is_conjunction (chal : oracle) t l :
  (forall g, cp_batch_verify B H chal t g l = Ok tt) <->
  Forall (fun i => (2 <= length (fst i))%nat /\ forall g, cp_verify_multiple B H chal t g (fst i) (snd i) = Ok tt) l.
Proof.
  assert (K : forall i, ((2 <= length (fst i))%nat /\ (forall g, cp_verify_multiple B H chal t g (fst i) (snd i) = Ok tt)) <->
    (cpx_shape (fst i) (snd i) /\ forall g, cpx_sum B H chal t g (fst i) (snd i) = m0)).
  { intros [coms p]. cbn [fst snd]. unfold cpx_shape. rewrite cpx_sum_all. split.
    - intros [L X]. rewrite cp_multiple_all in X by exact L. destruct X as [X1 X2]. destruct (x_zero p) as [pz|]; repeat split; auto; try discriminate; try tauto.
    - intros [[L Sh] [X1 X2]]. split; [exact L|]. rewrite cp_multiple_all by exact L. split; [exact X1|]. destruct (x_zero p) as [pz|]; [|tauto].
      split; [|exact X2]. intros Y. apply Sh in Y. discriminate. }
  split.
  - intros X. assert (Sh := cp_batch_shape B H chal t _ _ (X (fun _ => f0))).
    assert (Z : Forall (fun i => forall g, cpx_sum B H chal t g (fst i) (snd i) = m0) l).
    { apply cp_bsum_all. intros g. specialize (X g). rewrite cp_batch_eq in X by exact Sh. now apply meqb_ok in X. }
    rewrite Forall_forall in *. intros i Hi. apply K. split; auto.
  - intros X g. assert (Y : Forall (fun i => cpx_shape (fst i) (snd i) /\ forall g, cpx_sum B H chal t g (fst i) (snd i) = m0) l).
    { revert X. apply Forall_impl. intros i. apply K. }
    rewrite cp_batch_eq.
    + apply meqb_ok. apply (proj2 (cp_bsum_all B H chal t l)). revert Y. apply Forall_impl. tauto.
    + revert Y. apply Forall_impl. tauto.
Qed.
(** Special soundness of the two parts.  Two accepted proofs with the same first
    messages and different challenges give one value opening the first two
    commitments, computed by [found] from the two answers ... *)
Theorem C29_first_two_share_value (chal chal' : oracle) t coms p p' c0 c1 :
  nth_error coms 0 = Some c0 -> nth_error coms 1 = Some c1 ->
  cp_c3 (x_eq p) = cp_c3 (x_eq p') -> cp_c4 (x_eq p) = cp_c4 (x_eq p') ->
  let c := cp_challenge B H chal (cpx_t1 B H t coms) c0 c1 (x_eq p) in let c' := cp_challenge B H chal' (cpx_t1 B H t coms) c0 c1 (x_eq p') in c <> c' ->
  (forall g, cp_verify_multiple B H chal t g coms p = Ok tt) -> (forall g, cp_verify_multiple B H chal' t g coms p' = Ok tt) ->
  let v := found c c' (cp_z1 (x_eq p)) (cp_z1 (x_eq p')) in
  opens B H c0 v (found c c' (cp_z2 (x_eq p)) (cp_z2 (x_eq p'))) /\ opens B H c1 v (found c c' (cp_z3 (x_eq p)) (cp_z3 (x_eq p'))).
Proof.
  intros H0 H1 E3 E4 c c' Hc V V' v. unfold v, found, c, c' in *. clear v c c'. destruct coms as [|c0' [|c1' coms]]; try discriminate. injection H0 as ->. injection H1 as ->.
  apply cp_multiple_all in V; [|cbn; lia]. apply cp_multiple_all in V'; [|cbn; lia]. destruct V as [V _], V' as [V' _].
  destruct (cp_extract B H c0 c1 (x_eq p) (x_eq p') _ _ Hc E3 E4 V V') as [A C]. now split.
Qed.
(** ... and, with more than two, one value that opens the weighted sum of the
    differences with the first commitment and also the identity: it is zero, or the
    answers give a relation between the two generators. *)
Theorem C29_rest_differ_by_blinding (chal chal' : oracle) t coms p p' pz pz' :
  (2 < length coms)%nat -> x_zero p = Some pz -> x_zero p' = Some pz' -> cp_c3 pz = cp_c3 pz' -> cp_c4 pz = cp_c4 pz' ->
  let a := fst (cpx_lc B H chal t coms p) in
  a = fst (cpx_lc B H chal' t coms p') ->
  let d := comb a (map (fun c => nth 0 coms m0 - c) (skipn 2 coms)) in
  let c := cp_challenge B H chal (snd (cpx_lc B H chal t coms p)) d m0 pz in let c' := cp_challenge B H chal' (snd (cpx_lc B H chal' t coms p')) d m0 pz' in c <> c' ->
  (forall g, cp_verify_multiple B H chal t g coms p = Ok tt) -> (forall g, cp_verify_multiple B H chal' t g coms p' = Ok tt) ->
  related B H (found c c' (cp_z1 pz) (cp_z1 pz')) (found c c' (cp_z3 pz) (cp_z3 pz')) \/
  opens B H d f0 (found c c' (cp_z2 pz) (cp_z2 pz')).
Proof.
  intros L Ez Ez' E3 E4 a Ea d c c' Hc V V'. unfold c, c' in *. clear c c'.
  apply cp_multiple_all in V; [|lia]. apply cp_multiple_all in V'; [|lia]. rewrite Ez in V. rewrite Ez' in V'.
  destruct V as [_ [_ V]], V' as [_ [_ V']]. unfold cpx_eqs2, cpx_d in V, V'. rewrite <- Ea in V'. fold a in V. rewrite cp_d_comb in V, V'. fold d in V, V'.
  destruct (cp_extract B H d m0 pz pz' _ _ Hc E3 E4 V V') as [A C]. 
  unfold found. set (v := ((cp_z1 pz - cp_z1 pz') / _)%F) in *. set (z' := ((cp_z3 pz - cp_z3 pz') / _)%F) in *.
  destruct (f_dec v f0) as [Q|Q].
  - rewrite Q in A. right. exact A.
  - left. split; [now left|]. symmetry. exact C.
Qed.
(** From sums to each commitment: if the sums for weights [a] and for [a] with one
    weight changed are both blindings, the commitment concerned hides the first one's
    value. *)
Theorem C29_each_shares_value coms (a : list F) j e z z' c0 c v r0 :
  e <> f0 -> (j < length a)%nat -> nth_error coms (S (S j)) = Some c -> opens B H c0 v r0 ->
  opens B H (comb a (map (fun c => c0 - c) (skipn 2 coms))) f0 z ->
  opens B H (comb (firstn j a ++ (nth j a f0 + e)%F :: skipn (S j) a) (map (fun c => c0 - c) (skipn 2 coms))) f0 z' ->
  opens B H c v (r0 - (z' - z) / e)%F.
Proof.
  intros He Hj Hc O0 O O'. apply nth_error_Some in Hj.
  assert (Hd : nth_error (map (fun c => c0 - c) (skipn 2 coms)) j = Some (c0 - c)).
  { rewrite nth_error_map. destruct coms as [|x [|y coms]]; try (destruct j; discriminate). cbn [skipn nth_error] in *. now rewrite Hc. }
  unfold opens in *. rewrite (comb_change a _ j e (c0 - c) Hj Hd), O in O'.
  apply (smul_cancel e _ _ He).
  transitivity (e *: c0 - (f0 *: B + z *: H + e *: (c0 - c) - (f0 *: B + z *: H))); [module_eq|]. rewrite O', O0.
  module_prep. repeat split; field; exact He.
Qed.
(** Fewer than two commitments: prover and single verifier refuse. *)
Theorem C29_too_few_refused (chal : oracle) t g v coms bl p : (length coms < 2)%nat ->
  cp_prove_multiple B H chal t g v coms bl = Err /\ cp_verify_multiple B H chal t g coms p = Err.
Proof.
  intros L. split.
  - unfold cp_prove_multiple. replace (length coms <? 2)%nat with true by (symmetry; now apply Nat.ltb_lt). now rewrite orb_true_r.
  - destruct coms as [|c0 [|c1 coms]]; [reflexivity..|cbn in L; lia].
Qed.
(** The batch verifier does not: it panics. *)
Theorem C29_too_few_batch_refuted (chal : oracle) t g coms p l : (length coms < 2)%nat ->
  cp_batch_verify B H chal t g ((coms, p) :: l) = Panic.
Proof. intros L. destruct coms as [|c0 [|c1 coms]]; [reflexivity..|cbn in L; lia]. Qed.
(** A second part that should not be there, or is missing, is refused. *)
Theorem C29_wrong_shape_refused (chal : oracle) t g coms p : (2 <= length coms)%nat ->
  (x_zero p = None <-> length coms <> 2%nat) -> cp_verify_multiple B H chal t g coms p = Err.
Proof.
  intros L Sh. rewrite cp_verify_multiple_eq by exact L. destruct (meqb _ _); [|reflexivity].
  destruct (x_zero p) as [pz|]; destruct (Nat.eqb_spec (length coms) 2) as [e|n]; try reflexivity.
  - exfalso. apply Sh in n. discriminate.
  - exfalso. now apply (proj1 Sh).
Qed.

(** ** C30: delegated Schnorr. *)
(** An honest proof is accepted, and both sides draw the same challenges. *)
Theorem C30_honest_accepted inspect (chal : oracle) t (g : rng) r data coms :
  length data = length coms -> (forall i d c, nth_error data i = Some d -> nth_error coms i = Some c -> opens B H c (fst d) (snd d)) ->
  exists p insp beta lambda, ds_prove B H inspect chal t g r data coms = Ok (p, insp, beta, lambda) /\ ds_verify B H chal t coms p = Ok (beta, lambda).
Proof.
  intros L O. unfold ds_prove. rewrite L, Nat.eqb_refl. cbn [negb].
  set (rs := pair_up g (length coms)).
  assert (Lr : length rs = length coms) by (unfold rs, pair_up; now rewrite map_length, seq_length).
  do 4 eexists. split; [reflexivity|]. unfold ds_verify. cbn [ds_rand ds_resp ds_comm].
  rewrite !map_length, combine_length, Lr, L, Nat.min_id, !Nat.eqb_refl. cbn [negb].
  set (beta := chal _).
  match goal with |- (if ?b then _ else _) = _ => assert (X : b = true) end.
  { apply ds_check_ok; rewrite ?map_length, ?combine_length; try lia.
    intros i s c rd A1 A2 A3. rewrite nth_error_map in A1, A3.
    destruct (nth_error rs i) as [ri|] eqn:Er; [|discriminate]. cbn in A3. injection A3 as <-.
    destruct (nth_error (combine data rs) i) as [[d ri']|] eqn:Ec; [|discriminate]. cbn in A1. injection A1 as <-. cbn [fst snd].
    assert (Y : nth_error data i = Some d /\ nth_error rs i = Some ri').
    { clear -Ec. clearbody rs. revert i rs Ec. induction data as [|x l IH]; intros [|i] [|y rs] E; try discriminate; cbn in *; [injection E as -> ->; auto|now apply IH]. }
    destruct Y as [Y1 Y2]. rewrite Er in Y2. injection Y2 as ->. pose proof (O i d c Y1 A2) as Oc. unfold opens in Oc. rewrite Oc. unfold commit. module_eq. }
  rewrite X. reflexivity.
Qed.
(** Acceptance is exactly the list of group equations. *)
Theorem C30_exact_acceptance (chal : oracle) t coms p : length coms = length (ds_rand p) -> length coms = length (ds_resp p) ->
  let beta := chal (ds_transcript B H t coms (ds_comm p) (ds_rand p)) in
  ((exists out, ds_verify B H chal t coms p = Ok out) <->
   forall i s c rd, nth_error (ds_resp p) i = Some s -> nth_error coms i = Some c -> nth_error (ds_rand p) i = Some rd ->
     fst s *: B + snd s *: H = beta *: c + rd).
Proof.
  intros L1 L2 beta. rewrite <- (ds_check_ok B H beta) by congruence. unfold ds_verify. rewrite <- L1, <- L2, !Nat.eqb_refl. cbn [negb]. fold beta.
  destruct (ds_check _ _ _ _); split; intros X; eauto; try discriminate. now destruct X.
Qed.
(** Two accepted proofs with the same randomizers and different first challenges open
    every commitment. *)
Theorem C30_extraction (chal chal' : oracle) t t' coms p p' beta beta' lambda lambda' :
  ds_rand p = ds_rand p' -> beta <> beta' ->
  ds_verify B H chal t coms p = Ok (beta, lambda) -> ds_verify B H chal' t' coms p' = Ok (beta', lambda') ->
  forall i c s s', nth_error coms i = Some c -> nth_error (ds_resp p) i = Some s -> nth_error (ds_resp p') i = Some s' ->
  opens B H c ((fst s - fst s') / (beta - beta'))%F ((snd s - snd s') / (beta - beta'))%F.
Proof.
  intros Er Hb V V' i c s s' Hc Hs Hs'. unfold ds_verify in V, V'.
  destruct (Nat.eqb_spec (length coms) (length (ds_rand p))) as [L1|]; [|discriminate]. destruct (Nat.eqb_spec (length coms) (length (ds_resp p))) as [L2|]; [|discriminate].
  destruct (Nat.eqb_spec (length coms) (length (ds_rand p'))) as [L1'|]; [|discriminate]. destruct (Nat.eqb_spec (length coms) (length (ds_resp p'))) as [L2'|]; [|discriminate].
  cbn [negb] in V, V'. destruct (ds_check B H _ _) eqn:K in V; [|discriminate]. destruct (ds_check B H _ _) eqn:K' in V'; [|discriminate].
  apply Ok_inj in V. apply Ok_inj in V'. injection V as Vb _. injection V' as Vb' _. rewrite Vb in K. rewrite Vb' in K'.
  rewrite ds_check_ok in K by congruence. rewrite ds_check_ok in K' by congruence.
  destruct (nth_error (ds_rand p) i) as [rd|] eqn:Erd.
  2:{ apply nth_error_None in Erd. assert (i < length coms)%nat by (apply nth_error_Some; congruence). lia. }
  pose proof (K i s c rd Hs Hc Erd) as E. rewrite Er in Erd. pose proof (K' i s' c rd Hs' Hc Erd) as E'. unfold commit in *.
  assert (N : (beta - beta')%F <> f0) by (intros X; apply Hb; now apply (fsub_0 F)).
  unfold opens. apply (smul_cancel (beta - beta')%F _ _ N).
  transitivity ((beta *: c + rd) - (beta' *: c + rd)); [module_eq|]. rewrite <- E, <- E'. module_prep. repeat split; field; exact N.
Qed.
(** What the inspector checks (response = challenge * value + randomizer, for the
    values it was given) under the two challenges makes its values the extracted ones,
    hence the committed ones. *)
Theorem C30_inspected_values_committed (v rho s s' beta beta' : F) :
  beta <> beta' -> s = (beta * v + rho)%F -> s' = (beta' * v + rho)%F -> v = ((s - s') / (beta - beta'))%F.
Proof. intros N -> ->. field. intros X. apply N. now apply (fsub_0 F). Qed.
(** The prover hands the inspector exactly the committed values and the responses
    satisfy the inspector's equation. *)
Theorem C30_inspection_consistent inspect (chal : oracle) t (g : rng) r data coms p insp beta lambda :
  ds_prove B H inspect chal t g r data coms = Ok (p, insp, beta, lambda) ->
  map fst (di_pairs insp) = map fst data /\
  forall i v rho s, nth_error (di_pairs insp) i = Some (v, rho) -> nth_error (ds_resp p) i = Some s -> fst s = (beta * v + rho)%F.
Proof.
  unfold ds_prove. destruct (negb _); [discriminate|]. intros E. apply Ok_inj in E. set (rs := pair_up g (length data)) in *.
  assert (Lr : length rs = length data) by (unfold rs, pair_up; now rewrite map_length, seq_length).
  injection E as Ep Ei Eb _. subst p insp. cbn [di_pairs ds_resp]. rewrite Eb. clear Eb. clearbody rs. split.
  - revert rs Lr. induction data as [|d data IH]; intros [|x rs] Lr; try discriminate; [reflexivity|]. cbn. f_equal. apply IH. now injection Lr.
  - revert rs Lr. induction data as [|d data IH]; intros [|x rs] Lr [|i] v rho s A1 A2; try discriminate; cbn in A1, A2.
    + injection A1 as <- <-. injection A2 as <-. reflexivity.
    + apply (IH rs) with (i := i); auto.
Qed.
(** A proof with the wrong number of randomizers or responses makes the verifier
    panic instead of returning an error. *)
Theorem C30_malformed_rejected_refuted (chal : oracle) t coms p :
  length coms <> length (ds_rand p) \/ length coms <> length (ds_resp p) -> ds_verify B H chal t coms p = Panic.
Proof.
  intros X. unfold ds_verify. destruct (Nat.eqb_spec (length coms) (length (ds_rand p))) as [a|]; [|reflexivity].
  destruct (Nat.eqb_spec (length coms) (length (ds_resp p))) as [b|]; [|reflexivity]. destruct X; contradiction.
Qed.

(** ** C46, first part: ElGamal. *)
Theorem C46_elgamal_round_trip m r sk :
  elgamal_partial_decrypt (elgamal_encrypt B m r (elgamal_pk B sk)) sk = m *: B /\
  elgamal_verify B m (elgamal_encrypt B m r (elgamal_pk B sk)) sk = Ok tt.
Proof.
  unfold elgamal_partial_decrypt, elgamal_encrypt, elgamal_pk, elgamal_verify. cbn [fst snd]. split; [module_eq|].
  apply meqb_ok. module_eq.
Qed.
(** The check accepts exactly the encrypted message. *)
Theorem C46_elgamal_verify_exact m m' r sk : B <> m0 ->
  (elgamal_verify B m' (elgamal_encrypt B m r (elgamal_pk B sk)) sk = Ok tt <-> m' = m).
Proof.
  intros NB. unfold elgamal_encrypt, elgamal_pk, elgamal_verify. cbn [fst snd]. rewrite meqb_ok. split; [|intros ->; module_eq].
  intros X. assert (Y : (m' - m)%F *: B = m0).
  { transitivity ((m' *: B + sk *: (r *: B)) - (m *: B + r *: (sk *: B))); [module_eq|]. rewrite X. module_eq. }
  destruct (smul_eq_0 _ _ Y) as [Z|Z]; [now apply (fsub_0 F)|contradiction].
Qed.
End Props.
Print Assumptions C27_honest_accepted.
Print Assumptions C27_exact_acceptance.
Print Assumptions C27_false_row_one_draw.
Print Assumptions C27_special_soundness.
Print Assumptions C27_wrong_length_panics.
Print Assumptions C28_prover_succeeds.
Print Assumptions C28_honest_accepted.
Print Assumptions C28_single_accepted.
Print Assumptions C28_batch_is_conjunction.
Print Assumptions C28_special_soundness.
Print Assumptions C28_each_pair.
Print Assumptions C28_message_unique.
Print Assumptions C28_length_mismatch_panics.
Print Assumptions C29_honest_accepted.
Print Assumptions C29_honest_batch_accepted.
Print Assumptions C29_batch_is_conjunction.
Print Assumptions C29_first_two_share_value.
Print Assumptions C29_rest_differ_by_blinding.
Print Assumptions C29_each_shares_value.
Print Assumptions C29_too_few_refused.
Print Assumptions C29_too_few_batch_refuted.
Print Assumptions C29_wrong_shape_refused.
Print Assumptions C30_honest_accepted.
Print Assumptions C30_exact_acceptance.
Print Assumptions C30_extraction.
Print Assumptions C30_inspected_values_committed.
Print Assumptions C30_inspection_consistent.
Print Assumptions C30_malformed_rejected_refuted.
Print Assumptions C46_elgamal_round_trip.
Print Assumptions C46_elgamal_verify_exact.

(** ** Concrete cases, over the field with 101 elements. *)

Module SigmaCases.
Definition K := P101.
Definition E : Mod K := self_mod K.
Definition n (x : N) : K := @fofN K x.
(** A toy hash: it depends on the length of the transcript. *)
Definition ch (k : N) : oracle (F := K) (G := E) := fun t => n (k + 3 * N.of_nat (length t)).
Definition draws_of (k : N) : rng (F := K) := fun i => n (k + 7 * N.of_nat i).
Definition B : E := n 1.
Definition H : E := n 17.
(** The equality relation of two commitments to 5: a proof is made, accepted, and two
    challenges differ. *)
Definition c1 : E := commit B H (n 5) (n 3).
Definition c2 : E := commit B H (n 5) (n 8).
Definition c3 : E := commit B H (n 5) (n 40).
Example C27_case : exists p t' g1, sigma_prove (ch 1) [] (draws_of 2) (cp_elems B H c1 c2) cp_lhs [n 5; n 3; n 8] = Ok (p, t', g1) /\
  sigma_verify (ch 1) [] (draws_of 9) (cp_elems B H c1 c2) cp_lhs cp_rhs p = Ok tt.
Proof. apply C27_honest_accepted; [apply cp_wf|apply cp_solves; reflexivity]. Qed.
(** The hypotheses of special soundness are met by the honest prover answering two hashes. *)
Definition get (o : oracle (F := K) (G := E)) : sigma_proof := match sigma_prove o [] (draws_of 2) (cp_elems B H c1 c2) cp_lhs [n 5; n 3; n 8] with Ok (p, _, _) => p | _ => mkSigma [] [] end.
Example C27_two_challenges : s_coms (get (ch 1)) = s_coms (get (ch 2)) /\
  sigma_chal (ch 1) [] (cp_elems B H c1 c2) (get (ch 1)) <> sigma_chal (ch 2) [] (cp_elems B H c1 c2) (get (ch 2)) /\
  (forall g, sigma_verify (ch 1) [] g (cp_elems B H c1 c2) cp_lhs cp_rhs (get (ch 1)) = Ok tt) /\
  (forall g, sigma_verify (ch 2) [] g (cp_elems B H c1 c2) cp_lhs cp_rhs (get (ch 2)) = Ok tt) /\
  extracted 3 (s_resps (get (ch 1))) (s_resps (get (ch 2))) (sigma_chal (ch 1) [] (cp_elems B H c1 c2) (get (ch 1))) (sigma_chal (ch 2) [] (cp_elems B H c1 c2) (get (ch 2))) = [n 5; n 3; n 8].
Proof.
  assert (V : forall k g, sigma_verify (ch k) [] g (cp_elems B H c1 c2) cp_lhs cp_rhs (get (ch k)) = Ok tt).
  { intros k g. destruct (C27_honest_accepted (ch k) [] (draws_of 2) g (cp_elems B H c1 c2) cp_lhs cp_rhs [n 5; n 3; n 8]) as [p [t' [g1 [X Y]]]]; [apply cp_wf|apply cp_solves; reflexivity|].
    unfold get. rewrite X. exact Y. }
  split; [reflexivity|]. split; [vm_compute; discriminate|]. split; [apply V|]. split; [apply V|].
  assert (Q : forall a b : K, feqb a b = true -> a = b) by (intros a b X; now destruct (feqb_spec a b)).
  unfold extracted. cbn [seq map]. repeat (apply f_equal2; [apply Q; vm_compute; reflexivity|]). reflexivity.
Qed.
(** Two pairs, messages 4 and 9. *)
Definition pk : E := n 30.
Definition ct (m r : K) : E * E := elgamal_encrypt B m r pk.
Example C28_case : exists p, pe_aggregate_prove B H (ch 1) [] (draws_of 5) [n 4; n 9] [n 2; n 6] pk [ct (n 4) (n 2); ct (n 9) (n 6)] [commit B H (n 4) (n 2); commit B H (n 9) (n 6)] = Ok p /\
  pe_batch_verify B H (ch 1) [] (draws_of 8) [mkPi pk [ct (n 4) (n 2); ct (n 9) (n 6)] [commit B H (n 4) (n 2); commit B H (n 9) (n 6)] p] = Ok tt.
Proof.
  destruct (C28_prover_succeeds B H (ch 1) [] (draws_of 5) [n 4; n 9] [n 2; n 6] pk [ct (n 4) (n 2); ct (n 9) (n 6)] [commit B H (n 4) (n 2); commit B H (n 9) (n 6)]) as [p [P I]]; try reflexivity.
  - intros [|[|[|j]]] a b c d A1 A2 A3 A4; cbn in *; try discriminate; injection A1 as <-; injection A2 as <-; injection A3 as <-; injection A4 as <-; split; reflexivity.
  - exists p. split; [exact P|]. apply C28_honest_accepted. constructor; [exact I|constructor].
Qed.
(** A wrong pair is refused. *)
Definition refused {T : Type} (r : res T) : bool := match r with Err => true | _ => false end.
Example C28_wrong_pair :
  match pe_aggregate_prove B H (ch 1) [] (draws_of 5) [n 4; n 9] [n 2; n 6] pk [ct (n 4) (n 2); ct (n 8) (n 6)] [commit B H (n 4) (n 2); commit B H (n 9) (n 6)] with
  | Ok p => refused (pe_batch_verify B H (ch 1) [] (draws_of 8) [mkPi pk [ct (n 4) (n 2); ct (n 8) (n 6)] [commit B H (n 4) (n 2); commit B H (n 9) (n 6)] p])
  | _ => false
  end = true.
Proof. vm_compute. reflexivity. Qed.
Example C29_case : exists p, cp_prove_multiple B H (ch 1) [] (draws_of 5) (n 5) [c1; c2; c3] [n 3; n 8; n 40] = Ok p /\ cp_verify_multiple B H (ch 1) [] (draws_of 9) [c1; c2; c3] p = Ok tt.
Proof.
  apply C29_honest_accepted; [cbn; lia|]. split; [reflexivity|].
  intros [|[|[|[|i]]]] c r A1 A2; cbn in *; try discriminate; injection A1 as <-; injection A2 as <-; reflexivity.
Qed.
Example C29_wrong_third :
  match cp_prove_multiple B H (ch 1) [] (draws_of 5) (n 5) [c1; c2; commit B H (n 6) (n 40)] [n 3; n 8; n 40] with
  | Ok p => refused (cp_verify_multiple B H (ch 1) [] (draws_of 9) [c1; c2; commit B H (n 6) (n 40)] p)
  | _ => false
  end = true.
Proof. vm_compute. reflexivity. Qed.
Definition insp (a b : list K) (r : N) : N := r.
Example C30_case : exists p i b l, ds_prove B H insp (ch 1) [] (draws_of 5) 3 [(n 5, n 3); (n 5, n 8)] [c1; c2] = Ok (p, i, b, l) /\ ds_verify B H (ch 1) [] [c1; c2] p = Ok (b, l).
Proof.
  apply C30_honest_accepted; [reflexivity|]. intros [|[|[|i]]] d c A1 A2; cbn in *; try discriminate; injection A1 as <-; injection A2 as <-; reflexivity.
Qed.
Example C30_wrong_opening :
  match ds_prove B H insp (ch 1) [] (draws_of 5) 3 [(n 5, n 3); (n 6, n 8)] [c1; c2] with
  | Ok (p, _, _, _) => refused (ds_verify B H (ch 1) [] [c1; c2] p)
  | _ => false
  end = true.
Proof. vm_compute. reflexivity. Qed.
Example C46_case : B <> m0 /\ elgamal_verify B (n 4) (elgamal_encrypt B (n 4) (n 2) (elgamal_pk B (n 7))) (n 7) = Ok tt /\
  elgamal_verify B (n 5) (elgamal_encrypt B (n 4) (n 2) (elgamal_pk B (n 7))) (n 7) = Err.
Proof. split; [vm_compute; discriminate|]. split; vm_compute; reflexivity. Qed.
End SigmaCases.
