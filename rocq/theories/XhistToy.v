(** A concrete instance for histories of transfers: the one of XfrToy, where proofs are openings,
    with a mix verifier that also checks that the amounts are 64-bit numbers. *)
From Coq Require Import List NArith ZArith Bool Lia.
From Verif Require Import Base Field Zp Primality UtilsModel XfrModel XfrSpec XfrToy XhistSpec XhistProofs.
Import ListNotations.
Local Open Scope Z_scope.

Definition small (m : mixrec) : bool := let '(a, _, _, _) := m in (a <? 2 ^ 64)%N.
Definition small_mixes (batch : list (list (toyG * toyG) * list (toyG * toyG) * (list mixrec * list mixrec))) : bool :=
  toy_mixes batch && forallb (fun '(_, _, (i, o)) => forallb small (i ++ o)) batch.
Definition toyM : oracles toy :=
  {| RP := list (N * RistrettoFr); AP := RistrettoFr * list RistrettoFr;
     MP := list mixrec * list mixrec;
     v_ranges := toy_ranges : list (_ * list (CP toy)) -> bool;
     v_assets := toy_assets : list (list (PG toy) * _) -> bool;
     v_mixes := small_mixes : list (list (CP toy * CP toy) * list (CP toy * CP toy) * _) -> bool;
     v_ranges_nil := eq_refl; v_assets_nil := eq_refl; v_mixes_nil := eq_refl |}.
Definition toyM_ext : RP toy toyM -> list (CP toy) -> list (Z * PF toy) := toy_ext.
Definition toyM_aext : AP toy toyM -> list (PG toy) -> PF toy * list (PF toy) := toy_aext.
Definition as_wit (m : mixrec) : wit toy := let '(a, t, ra, rt) := m in mkWit toy (Z.of_N a, ra) (t, rt).
Definition toy_mext : mix_ext toy toyM := fun p _ _ => (map as_wit (fst p), map as_wit (snd p)).

Lemma toyM_range : range_extractor toy toyM toyM_ext.
Proof. exact toy_range_extractor. Qed.
Lemma toyM_asset : asset_extractor toy toyM toyM_aext.
Proof. exact toy_asset_extractor. Qed.

Lemma small_below a : (a < 2 ^ 64)%N -> Z.of_N a < 2 ^ 64.
Proof. intros H. apply N2Z.inj_lt in H. exact H. Qed.
Lemma dec_toy (g h : toyG) : g = h -> decompress toy g = Some h.
Proof. intros ->. reflexivity. Qed.
Lemma wit_opens q (c : toyG * toyG) a t ra rt : 2 ^ 64 <= q -> (a < 2 ^ 64)%N ->
  fst c = pedersen toy (Z.of_N a) ra -> snd c = madd (smul t (gB toy)) (smul rt (gBb toy)) ->
  w_opens toy q c (as_wit (a, t, ra, rt)).
Proof.
  intros Hq S H1 H2. apply small_below in S. unfold w_opens. split; [exact (dec_toy _ _ H1)|]. split; [exact (dec_toy _ _ H2)|].
  change (fst (w_amount toy (as_wit (a, t, ra, rt)))) with (Z.of_N a). lia.
Qed.
Lemma mix_ok_spec c a t ra rt : mix_ok c (a, t, ra, rt) = true ->
  fst c = pedersen toy (Z.of_N a) ra /\ snd c = madd (smul t (gB toy)) (smul rt (gBb toy)).
Proof.
  intros H. unfold mix_ok in H. apply andb_prop in H. destruct H as [H1 H2].
  destruct (toy_eqb_spec (fst c) (pedersen toy (Z.of_N a) ra)) as [E1|]; [|discriminate H1].
  destruct (toy_eqb_spec (snd c) (madd (smul t (gB toy)) (smul rt (gBb toy)))) as [E2|]; [|discriminate H2].
  split; [exact E1|exact E2].
Qed.
Lemma small_spec a t ra rt : small (a, t, ra, rt) = true -> (a < 2 ^ 64)%N.
Proof. intros H. unfold small in H. exact (proj1 (N.ltb_lt _ _) H). Qed.
Lemma wits_open q cs ms : 2 ^ 64 <= q -> all2 mix_ok cs ms = true -> forallb small ms = true -> Forall2 (w_opens toy q) cs (map as_wit ms).
Proof.
  intros Hq H S. apply all2_Forall2 in H. induction H as [|c m cs ms H _ IH]; [constructor|].
  cbn [forallb] in S. apply andb_prop in S. destruct S as [S S']. cbn [map]. constructor; [|exact (IH S')].
  destruct m as [[[a t] ra] rt]. apply small_spec in S. apply mix_ok_spec in H. destruct H as [H1 H2].
  exact (wit_opens q c a t ra rt Hq S H1 H2).
Qed.
Lemma if_same (F : Field) (u t : F) (a : N) : (if f_dec u t then Z.of_N a else 0) = Z.of_N (if feqb t u then a else 0%N).
Proof. unfold feqb. destruct (f_dec u t) as [e|e], (f_dec t u) as [e'|e']; try (exfalso; congruence); reflexivity. Qed.
Lemma held_mtotal t ms : held t (map (w_view toy) (map as_wit ms)) = Z.of_N (mtotal t ms).
Proof.
  induction ms as [|[[[a u] ra] rt] ms IH]; [reflexivity|]. unfold held in *. cbn [map]. rewrite zsum_cons', IH.
  change (mtotal t ((a, u, ra, rt) :: ms)) with ((if feqb t u then a else 0) + mtotal t ms)%N. rewrite N2Z.inj_add. f_equal.
  exact (if_same RistrettoFr u t a).
Qed.
Lemma mtotal_none t ms : (forall m, In m ms -> (let '(_, u, _, _) := m in u) <> t) -> mtotal t ms = 0%N.
Proof.
  induction ms as [|[[[a u] ra] rt] ms IH]; intros H; [reflexivity|].
  change (mtotal t ((a, u, ra, rt) :: ms)) with ((if feqb t u then a else 0) + mtotal t ms)%N. rewrite IH by (intros m Hm; apply H; now right).
  unfold feqb. destruct (f_dec t u) as [->|]; [|reflexivity]. exfalso. exact (H _ (or_introl eq_refl) eq_refl).
Qed.
Lemma balanced_all i o t : mix_balanced i o = true -> mtotal t i = mtotal t o.
Proof.
  intros H. unfold mix_balanced in H. rewrite forallb_forall in H.
  destruct (Exists_dec (fun m : mixrec => (let '(_, u, _, _) := m in u) = t) (i ++ o)) as [X|X].
  { intros [[[a u] ra] rt]. apply f_dec. }
  - apply Exists_exists in X. destruct X as [[[[a u] ra] rt] [Hin ->]]. apply H in Hin. now apply N.eqb_eq in Hin.
  - rewrite !mtotal_none; [reflexivity| |]; intros m Hm E; apply X, Exists_exists; exists m; split; auto; apply in_or_app; auto.
Qed.
Lemma toyM_mix q : 2 ^ 64 <= q -> mix_extractor toy toyM q toy_mext.
Proof.
  intros Hq batch H ci co [i o] Hin. cbn in H. unfold small_mixes in H. apply andb_prop in H. destruct H as [H S].
  unfold toy_mixes in H. rewrite forallb_forall in H, S. specialize (H _ Hin). specialize (S _ Hin). cbn beta iota in H, S.
  apply andb_prop in H. destruct H as [H B]. apply andb_prop in H. destruct H as [H1 H2]. rewrite forallb_app in S. apply andb_prop in S. destruct S as [S1 S2].
  unfold toy_mext. cbn [fst snd]. split; [exact (wits_open q _ _ Hq H1 S1)|]. split; [exact (wits_open q _ _ Hq H2 S2)|].
  intros _ _. split.
  - apply Forall_map, Forall_map. rewrite forallb_forall in S2. apply Forall_forall. intros [[[a u] ra] rt] Hm. specialize (S2 _ Hm). apply small_spec, small_below in S2.
    change (fst (w_view toy (as_wit (a, u, ra, rt)))) with (Z.of_N a). lia.
  - intros t. rewrite !held_mtotal, (balanced_all i o t B). lia.
Qed.
