(** C28: from the combination that is proved to every single pair. *)
From Coq Require Import List Arith NArith Bool Lia Field Ring.
From Verif Require Import Base Field PField SigmaModel SigmaSpec SigmaProofs SigmaLemmas SigmaProps BindProps.
Import ListNotations.
Local Open Scope F_scope.
Local Open Scope M_scope.

Section Tie.
Context {F : Field} {G : Mod F} (B H : G).
Add Field Ft : (f_th F).
Local Notation transcript := (transcript (F := F) (G := G)).
Local Notation oracle := (oracle (F := F) (G := G)).

(** The weights: one for the first pair, and for every other pair a challenge of its
    own, drawn after the key and all ciphertexts and commitments were hashed. *)
Theorem C28_weights_are_drawn (chal : oracle) (t : transcript) i n : length (pi_cts i) = S n ->
  fst (pi_lc B H chal t i) = f1 :: map (fun k => chal (init_pe_transcript B H t (pi_pk i) (pi_cts i) (pi_coms i) ++ repeat Drawn k)) (seq 0 n).
Proof.
  intros L. unfold pi_lc. rewrite L.
  destruct (lc_same chal chal (init_pe_transcript B H t (pi_pk i) (pi_cts i) (pi_coms i)) (S n) (fun _ _ => eq_refl)) as [_ E]. rewrite E. reflexivity.
Qed.

(** How many draws end a transcript. *)
Fixpoint trailing_rev (l : transcript) : nat := match l with Drawn :: l' => S (trailing_rev l') | _ => 0%nat end.
Definition trailing (l : transcript) : nat := trailing_rev (rev l).
Definition ends_with_com (l : transcript) : bool := match rev l with Com _ :: _ => true | _ => false end.
Definition scripted (xs : list F) (c : F) : oracle := fun q => if ends_with_com q then c else nth (trailing q) xs f0.
Lemma rev_repeat_drawn k : rev (repeat (Drawn : ev (F := F) (G := G)) k) = repeat Drawn k.
Proof.
  induction k as [|k IH]; [reflexivity|]. cbn [repeat rev]. rewrite IH. change [Drawn] with (repeat (Drawn : ev (F := F) (G := G)) 1). rewrite <- repeat_app. now replace (k + 1)%nat with (S k) by lia.
Qed.
Lemma trailing_repeat k (l : transcript) y : y <> Drawn -> trailing ((l ++ [y]) ++ repeat Drawn k) = k.
Proof.
  intros Ny. unfold trailing. rewrite rev_app_distr, rev_repeat_drawn, rev_app_distr. cbn [rev app].
  induction k as [|k IH]; cbn [repeat app trailing_rev]; [destruct y; [reflexivity..|contradiction] || (destruct y; try reflexivity; contradiction)|now rewrite IH].
Qed.
Lemma init_ends t pk cts coms : exists l x, init_pe_transcript B H t pk cts coms = (l ++ [Elem x] : transcript).
Proof.
  unfold init_pe_transcript, init_sigma. change ([B; H; pk] ++ ?l) with ([B; H] ++ [pk] ++ l).
  match goal with |- context [map Elem ([B; H] ++ ?l)] => generalize l as r end. intros r. cbn [app].
  destruct r as [|x r _] using rev_ind.
  - exists (t ++ [Tag 0; Tag 2; Elem B]), H. rewrite <- app_assoc. reflexivity.
  - exists (t ++ [Tag 0; Tag 2] ++ map Elem (B :: H :: r)), x. change (B :: H :: r ++ [x]) with ((B :: H :: r) ++ [x]). rewrite map_app. cbn [map]. rewrite <- !app_assoc. reflexivity.
Qed.
Lemma map_nth_seq (xs : list F) : map (fun k => nth k xs f0) (seq 0 (length xs)) = xs.
Proof. induction xs as [|x xs IH]; [reflexivity|]. cbn [length seq map nth]. f_equal. rewrite <- seq_shift, map_map. exact IH. Qed.
(** Any weights and any challenge can come: there is a hash that gives them. *)
Theorem C28_any_weights (t : transcript) (xs : list F) (c : F) :
  exists chal : oracle, forall i, length (pi_cts i) = S (length xs) ->
  fst (pi_lc B H chal t i) = f1 :: xs /\ pi_challenge B H chal t i = c.
Proof.
  exists (scripted xs c). intros i L. split.
  - rewrite (C28_weights_are_drawn _ _ _ _ L). f_equal. rewrite <- (map_nth_seq xs) at 2. apply map_ext. intros k.
    destruct (init_ends t (pi_pk i) (pi_cts i) (pi_coms i)) as [l [x ->]]. unfold scripted.
    rewrite trailing_repeat by discriminate. replace (ends_with_com _) with false; [reflexivity|].
    unfold ends_with_com. rewrite rev_app_distr, rev_repeat_drawn, rev_app_distr. destruct k; reflexivity.
  - unfold pi_challenge, pe_challenge, sigma_chal, scripted. unfold ends_with_com. rewrite rev_app_distr. cbn [pe_sigma s_coms map rev app]. reflexivity.
Qed.

(** Weights [x] have been answered: two accepted proofs with the same first message and
    different challenges, both for these weights. *)
Definition answered (t : transcript) pk cts coms (x : list F) : Prop :=
  exists (chal chal' : oracle) p p',
  let i := mkPi pk cts coms p in let i' := mkPi pk cts coms p' in
  pe_e1 p = pe_e1 p' /\ pe_c1 p = pe_c1 p' /\ fst (pi_lc B H chal t i) = x /\ fst (pi_lc B H chal' t i') = x /\
  pi_challenge B H chal t i <> pi_challenge B H chal' t i' /\
  (forall g, pe_aggregate_verify B H chal t g pk cts coms p = Ok tt) /\ (forall g, pe_aggregate_verify B H chal' t g pk cts coms p' = Ok tt).
Lemma answered_opens t pk cts coms x : answered t pk cts coms x -> exists m r, same_message B H pk (comb_ct x cts) (comb x coms) m r.
Proof.
  intros [chal [chal' [p [p' [E1 [E2 [X [X' [N [V V']]]]]]]]]]. 
  pose proof (C28_special_soundness B H chal chal' t pk cts coms p p' E1 E2) as S. cbv zeta in S. rewrite X, X' in S. specialize (S eq_refl N V V').
  eauto.
Qed.
(** The list [x] with [d] added at position [j]. *)
Definition shifted (j : nat) (d : F) (x : list F) : list F := firstn j x ++ (nth j x f0 + d)%F :: skipn (S j) x.
Lemma choose pk : forall cts coms, length cts = length coms ->
  (forall j ct com, nth_error cts j = Some ct -> nth_error coms j = Some com -> exists m r, same_message B H pk ct com m r) ->
  exists m r, length m = length r /\ length m = length cts /\
  forall j a b c d, nth_error m j = Some a -> nth_error r j = Some b -> nth_error cts j = Some c -> nth_error coms j = Some d -> same_message B H pk c d a b.
Proof.
  induction cts as [|ct cts IH]; intros [|com coms] L K; try discriminate.
  - exists [], []. do 2 (split; [reflexivity|]). intros [|j] a b c d; discriminate.
  - destruct (IH coms) as [m [r [L1 [L2 A]]]]; [now injection L|intros j; apply (K (S j))|]. destruct (K 0%nat ct com eq_refl eq_refl) as [a [b Q]].
    exists (a :: m), (b :: r). cbn [length]. do 2 (split; [congruence|]). intros [|j] a' b' c d; cbn [nth_error]; [|apply A].
    intros E1 E2 E3 E4. injection E1 as <-. injection E2 as <-. injection E3 as <-. injection E4 as <-. exact Q.
Qed.
(** Weights answered once, and once more with each drawn weight changed: then every
    ciphertext, the first included, encrypts the value its commitment hides, under one
    and the same randomness. *)
Theorem C28_every_pair_is_tied (t : transcript) pk cts coms xs :
  length cts = S (length xs) -> length coms = length cts ->
  answered t pk cts coms (f1 :: xs) ->
  (forall j, (j < length xs)%nat -> exists d, d <> f0 /\ answered t pk cts coms (f1 :: shifted j d xs)) ->
  forall j ct com, nth_error cts j = Some ct -> nth_error coms j = Some com -> exists m r, same_message B H pk ct com m r.
Proof.
  intros L Lc A0 A. apply answered_opens in A0. destruct A0 as [m0' [r0' S0]].
  assert (T : forall j ct com, nth_error cts (S j) = Some ct -> nth_error coms (S j) = Some com -> exists m r, same_message B H pk ct com m r).
  { intros j ct com Hct Hcom. assert (Hj : (j < length xs)%nat) by (assert (S j < length cts)%nat by (apply nth_error_Some; congruence); lia).
    destruct (A j Hj) as [d [Nd Aj]]. apply answered_opens in Aj. destruct Aj as [m1 [r1 S1]].
    do 2 eexists. apply (C28_each_pair B H pk cts coms (f1 :: xs) (S j) d ct com m0' r0' m1 r1 Nd); [cbn; lia|assumption..|].
    cbv zeta. exact S1. }
  intros [|j] ct com Hct Hcom; [|exact (T j ct com Hct Hcom)].
  destruct cts as [|[c1 c2] cts]; [discriminate|]. destruct coms as [|d coms]; [discriminate|]. injection Hct as <-. injection Hcom as <-.
  destruct (choose pk cts coms) as [m [r [L1 [L2 K]]]]; [now injection Lc|exact T|].
  assert (S1 : same_message B H pk (comb_ct xs cts) (comb xs coms) (dots xs m) (dots xs r)) by (apply (same_comb B H pk xs m r cts coms); [exact L1|exact L2|rewrite L2; now injection Lc|exact K]).
  exists (m0' - dots xs m)%F, (r0' - dots xs r)%F. destruct S0 as [E0 O0], S1 as [E1 O1]. unfold encrypts, opens, comb_ct in *. cbn [map fst snd] in *.
  rewrite !comb_cons in E0. rewrite comb_cons in O0. injection E0 as Ea Eb. injection E1 as Fa Fb. rewrite Fa in Ea. rewrite Fb in Eb. rewrite O1 in O0.
  rewrite !smul_1 in *. split; [unfold encrypts; f_equal|unfold opens].
  - transitivity (c1 + dots xs r *: B - dots xs r *: B); [module_eq|]. rewrite Ea. module_eq.
  - transitivity (c2 + (dots xs m *: B + dots xs r *: pk) - (dots xs m *: B + dots xs r *: pk)); [module_eq|]. rewrite Eb. module_eq.
  - transitivity (d + (dots xs m *: B + dots xs r *: H) - (dots xs m *: B + dots xs r *: H)); [module_eq|]. rewrite O0. module_eq.
Qed.
(** Pairs that are tied can be answered for all weights, so the hypotheses above are met
    exactly by the true statements. *)
Theorem C28_tied_pairs_are_answered (t : transcript) pk cts coms xs :
  length cts = S (length xs) -> length coms = length cts ->
  (forall j ct com, nth_error cts j = Some ct -> nth_error coms j = Some com -> exists m r, same_message B H pk ct com m r) ->
  answered t pk cts coms (f1 :: xs).
Proof.
  intros L Lc K. destruct (choose pk cts coms (eq_sym Lc) K) as [m [r [L1 [L2 A]]]].
  assert (S1 : same_message B H pk (comb_ct (f1 :: xs) cts) (comb (f1 :: xs) coms) (dots (f1 :: xs) m) (dots (f1 :: xs) r)) by (apply (same_comb B H pk (f1 :: xs) m r cts coms); [exact L1|exact L2|rewrite L2; now symmetry|exact A]).
  set (M := dots (f1 :: xs) m) in *. set (R := dots (f1 :: xs) r) in *.
  destruct (C28_any_weights t xs f1) as [chal P]. destruct (C28_any_weights t xs f0) as [chal' P'].
  exists chal, chal', (mkPe M R (m0, m0) m0), (mkPe f0 f0 (m0, m0) m0). cbv zeta.
  destruct (P (mkPi pk cts coms (mkPe M R (m0, m0) m0)) L) as [Pw Pc]. destruct (P' (mkPi pk cts coms (mkPe f0 f0 (m0, m0) m0)) L) as [Pw' Pc'].
  assert (V : forall ch p, pi_fits (mkPi pk cts coms p) -> Forall (fun a => a = m0) (pi_eqs B H ch t (mkPi pk cts coms p)) -> forall g, pe_aggregate_verify B H ch t g pk cts coms p = Ok tt).
  { intros ch p Fp Z g. unfold pe_aggregate_verify. rewrite pe_batch_eq by (constructor; [exact Fp|constructor]). apply meqb_ok. apply (proj2 (pe_bsum_all B H ch t [mkPi pk cts coms p])). constructor; [exact Z|constructor]. }
  do 4 (split; [first [reflexivity|assumption]|]). split; [rewrite Pc, Pc'; apply f1_neq_0|].
  destruct S1 as [E O]. unfold encrypts, opens in E, O.
  split; apply V; try (symmetry; exact Lc).
  - unfold pi_eqs. rewrite Pc, Pw. cbn [pi_pk pi_cts pi_coms pi_proof]. rewrite lc_ct_comb, lc_g_comb, E, O. unfold pe_eqs. cbn [pe_z1 pe_z2 pe_e1 pe_c1 fst snd].
    repeat constructor; module_eq.
  - unfold pi_eqs. rewrite Pc', Pw'. cbn [pi_pk pi_cts pi_coms pi_proof]. rewrite lc_ct_comb, lc_g_comb, E, O. unfold pe_eqs. cbn [pe_z1 pe_z2 pe_e1 pe_c1 fst snd].
    repeat constructor; module_eq.
Qed.
End Tie.
Print Assumptions C28_weights_are_drawn.
Print Assumptions C28_any_weights.
Print Assumptions C28_every_pair_is_tied.
Print Assumptions C28_tied_pairs_are_answered.

(** Two pairs in the concrete group of SigmaProps meet the hypotheses, for the weights
    (1, 12) and with the second one changed. *)
Import SigmaCases.
Example C28_tied_case :
  let cts := [ct (n 4) (n 2); ct (n 9) (n 6)] in let coms := [commit SigmaCases.B SigmaCases.H (n 4) (n 2); commit SigmaCases.B SigmaCases.H (n 9) (n 6)] in
  answered SigmaCases.B SigmaCases.H [] pk cts coms (f1 :: [n 12]) /\
  answered SigmaCases.B SigmaCases.H [] pk cts coms (f1 :: shifted 0 (n 1) [n 12]) /\ (n 1 : K) <> f0.
Proof.
  assert (T : forall j c d, nth_error [ct (n 4) (n 2); ct (n 9) (n 6)] j = Some c -> nth_error [commit SigmaCases.B SigmaCases.H (n 4) (n 2); commit SigmaCases.B SigmaCases.H (n 9) (n 6)] j = Some d ->
    exists m r, same_message SigmaCases.B SigmaCases.H pk c d m r).
  { intros [|[|[|j]]] c d A1 A2; cbn in A1, A2; try discriminate; injection A1 as <-; injection A2 as <-; [exists (n 4), (n 2)|exists (n 9), (n 6)]; split; reflexivity. }
  split; [|split].
  - apply C28_tied_pairs_are_answered; [reflexivity..|exact T].
  - apply C28_tied_pairs_are_answered; [reflexivity..|exact T].
  - vm_compute. discriminate.
Qed.
