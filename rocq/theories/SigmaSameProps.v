(** C29: from the two parts of a proof to one value in all the commitments. *)
From Coq Require Import List Arith NArith Bool Lia Field Ring.
From Verif Require Import Base Field PField SigmaModel SigmaSpec SigmaProofs SigmaLemmas SigmaProps BindProps SigmaTieProps.
Import ListNotations.
Local Open Scope F_scope.
Local Open Scope M_scope.

Section Same.
Context {F : Field} {G : Mod F} (B H : G).
Add Field Fs : (f_th F).
Local Notation transcript := (transcript (F := F) (G := G)).
Local Notation oracle := (oracle (F := F) (G := G)).

(** The weights of the second part: one for the third commitment, and for every
    further one a challenge of its own, drawn after all commitments and the first
    message of the first part were hashed. *)
Theorem C29_weights_are_drawn (chal : oracle) (t : transcript) coms p n : length coms = S (S (S n)) ->
  fst (cpx_lc B H chal t coms p) = f1 :: map (fun k => chal (cpx_t2 B H t coms p ++ repeat Drawn k)) (seq 0 n).
Proof.
  intros L. unfold cpx_lc. rewrite L. change (S (S (S n)) - 2)%nat with (S n).
  destruct (lc_same chal chal (cpx_t2 B H t coms p) (S n) (fun _ _ => eq_refl)) as [_ E]. rewrite E. reflexivity.
Qed.
(** Any weights and any challenges can come. *)
Theorem C29_any_weights (t : transcript) (xs : list F) (c : F) :
  exists chal : oracle, forall coms p, length coms = S (S (S (length xs))) ->
  fst (cpx_lc B H chal t coms p) = f1 :: xs /\
  forall t' a b q, cp_challenge B H chal t' a b q = c.
Proof.
  exists (scripted (f0 :: xs) c). intros coms p L. split.
  - rewrite (C29_weights_are_drawn _ _ _ _ _ L). f_equal. rewrite <- (map_nth_seq xs) at 2. apply map_ext. intros k.
    unfold cpx_t2, cp_after. cbn [cp_sigma s_coms map app]. unfold scripted.
    assert (Q : forall (l : transcript) a b, (l ++ [Com a; Com b; Drawn]) ++ repeat Drawn k = ((l ++ [Com a]) ++ [Com b]) ++ repeat Drawn (S k)) by (intros; rewrite <- !app_assoc; reflexivity).
    rewrite Q, trailing_repeat by discriminate. cbn [nth].
    replace (ends_with_com _) with false; [reflexivity|].
    unfold ends_with_com. rewrite rev_app_distr, rev_repeat_drawn. reflexivity.
  - intros t' a b q. unfold cp_challenge, sigma_chal, scripted, ends_with_com. rewrite rev_app_distr. cbn [cp_sigma s_coms map rev app]. reflexivity.
Qed.

(** Two accepted proofs with the same first messages and different challenges in the
    first part ... *)
Definition answered_first (t : transcript) (coms : list G) : Prop :=
  exists (chal chal' : oracle) p p',
  let c q := cp_challenge B H q (cpx_t1 B H t coms) (nth 0 coms m0) (nth 1 coms m0) in
  cp_c3 (x_eq p) = cp_c3 (x_eq p') /\ cp_c4 (x_eq p) = cp_c4 (x_eq p') /\ c chal (x_eq p) <> c chal' (x_eq p') /\
  (forall g, cp_verify_multiple B H chal t g coms p = Ok tt) /\ (forall g, cp_verify_multiple B H chal' t g coms p' = Ok tt).
(** ... and in the second part, for the weights [a]. *)
Definition answered_rest (t : transcript) (coms : list G) (a : list F) : Prop :=
  exists (chal chal' : oracle) p p' pz pz',
  let d := comb a (map (fun c => nth 0 coms m0 - c) (skipn 2 coms)) in
  x_zero p = Some pz /\ x_zero p' = Some pz' /\ cp_c3 pz = cp_c3 pz' /\ cp_c4 pz = cp_c4 pz' /\
  fst (cpx_lc B H chal t coms p) = a /\ fst (cpx_lc B H chal' t coms p') = a /\
  cp_challenge B H chal (snd (cpx_lc B H chal t coms p)) d m0 pz <> cp_challenge B H chal' (snd (cpx_lc B H chal' t coms p')) d m0 pz' /\
  (forall g, cp_verify_multiple B H chal t g coms p = Ok tt) /\ (forall g, cp_verify_multiple B H chal' t g coms p' = Ok tt).
Lemma rest_opens t coms a : (2 < length coms)%nat -> answered_rest t coms a ->
  (exists x y, related B H x y) \/ exists z, opens B H (comb a (map (fun c => nth 0 coms m0 - c) (skipn 2 coms))) f0 z.
Proof.
  intros L [chal [chal' [p [p' [pz [pz' [Z [Z' [E3 [E4 [A [A' [N [V V']]]]]]]]]]]]]].
  pose proof (C29_rest_differ_by_blinding B H chal chal' t coms p p' pz pz' L Z Z' E3 E4) as S. cbv zeta in S. rewrite A, A' in S.
  destruct (S eq_refl N V V') as [R|O]; eauto.
Qed.
Lemma comb_blind xs : forall ds : list G, (forall j d, nth_error ds j = Some d -> exists r, opens B H d f0 r) -> exists z, opens B H (comb xs ds) f0 z.
Proof.
  induction xs as [|x xs IH]; intros [|d ds] K; try (exists f0; unfold opens, comb; cbn; module_eq).
  destruct (IH ds) as [z O]; [intros j; apply (K (S j))|]. destruct (K 0%nat d eq_refl) as [r O0]. exists (x * r + z)%F. unfold opens in *. rewrite comb_cons, O, O0. module_eq.
Qed.
(** The first part answered, and the second part answered for some weights and once
    more with each drawn weight changed: then one value opens all the commitments, or
    the answers relate the two generators. *)
Theorem C29_all_share_one_value (t : transcript) coms xs :
  length coms = S (S (S (length xs))) -> answered_first t coms ->
  answered_rest t coms (f1 :: xs) ->
  (forall j, (j < length xs)%nat -> exists d, d <> f0 /\ answered_rest t coms (f1 :: shifted j d xs)) ->
  (exists x y, related B H x y) \/
  exists v, forall j c, nth_error coms j = Some c -> exists r, opens B H c v r.
Proof.
  intros L A1 A2 A. assert (L2 : (2 < length coms)%nat) by lia.
  destruct coms as [|c0 [|c1 [|c2 coms]]]; try discriminate. cbn [length] in L.
  destruct A1 as [chal [chal' [p [p' [E3 [E4 [N [V V']]]]]]]].
  pose proof (C29_first_two_share_value B H chal chal' t (c0 :: c1 :: c2 :: coms) p p' c0 c1 eq_refl eq_refl E3 E4) as S0. cbv zeta in S0. destruct (S0 N V V') as [O0 O1]. clear S0.
  set (v := found _ _ _ _) in O0, O1. set (r0 := found _ _ _ _) in O0. set (r1 := found _ _ _ _) in O1. clearbody v r0 r1. clear chal chal' p p' E3 E4 N V V'.
  destruct (rest_opens t _ _ L2 A2) as [R|[z Oz]]; [now left|]. cbn [nth skipn] in Oz.
  assert (T : (exists x y, related B H x y) \/ forall j c, nth_error coms j = Some c -> exists r, opens B H c v r).
  { assert (Q : forall n, (n <= length coms)%nat -> (exists x y, related B H x y) \/ forall j c, (j < n)%nat -> nth_error coms j = Some c -> exists r, opens B H c v r).
    { induction n as [|n IH]; intros Hn; [right; intros; lia|]. destruct IH as [R|K]; [lia|now left|].
      destruct (A n) as [d [Nd An]]; [lia|]. destruct (rest_opens t _ _ L2 An) as [R|[z' Oz']]; [now left|]. right. cbn [nth skipn] in Oz'.
      intros j c Hj Hc. destruct (Nat.eq_dec j n) as [->|]; [|apply (K j); [lia|exact Hc]].
      eexists. apply (C29_each_shares_value B H (c0 :: c1 :: c2 :: coms) (f1 :: xs) (S n) d z z' c0 c v r0 Nd); [cbn [length]; lia|exact Hc|exact O0|exact Oz|exact Oz']. }
    destruct (Q (length coms) (le_n _)) as [R|K]; [now left|]. right. intros j c Hc. apply (K j); [|exact Hc]. apply nth_error_Some. congruence. }
  destruct T as [R|T]; [now left|]. right. exists v.
  destruct (comb_blind xs (map (fun c => c0 - c) coms)) as [w Ow].
  { intros j d Hd. rewrite nth_error_map in Hd. destruct (nth_error coms j) as [c|] eqn:Ec; [|discriminate]. injection Hd as <-. destruct (T j c Ec) as [r Or].
    exists (r0 - r)%F. unfold opens in *. rewrite O0, Or. module_eq. }
  intros [|[|[|j]]] c Hc; cbn [nth_error] in Hc; try (injection Hc as <-); [eauto..| |eauto].
  cbn [map] in Oz. exists (r0 - (z - w))%F. unfold opens in *. rewrite comb_cons, Ow in Oz.
  transitivity (c0 - (f1 *: (c0 - c2) + (f0 *: B + w *: H) - (f0 *: B + w *: H))); [module_eq|]. rewrite Oz, O0. module_eq.
Qed.
(** Commitments to one value can be answered in both parts for all weights: the
    hypotheses above are met by every true statement. *)
Theorem C29_one_value_is_answered (t : transcript) coms xs v :
  length coms = S (S (S (length xs))) -> (forall j c, nth_error coms j = Some c -> exists r, opens B H c v r) ->
  answered_first t coms /\ answered_rest t coms (f1 :: xs).
Proof.
  intros L K. destruct coms as [|c0 [|c1 coms]]; try discriminate. cbn [length] in L.
  destruct (K 0%nat c0 eq_refl) as [r0 O0]. destruct (K 1%nat c1 eq_refl) as [r1 O1].
  destruct (comb_blind (f1 :: xs) (map (fun c => c0 - c) coms)) as [w Ow].
  { intros j d Hd. rewrite nth_error_map in Hd. destruct (nth_error coms j) as [c|] eqn:Ec; [|discriminate]. injection Hd as <-. destruct (K (S (S j)) c Ec) as [r Or].
    exists (r0 - r)%F. unfold opens in *. rewrite O0, Or. module_eq. }
  destruct (C29_any_weights t xs f1) as [chal P]. destruct (C29_any_weights t xs f0) as [chal' P'].
  set (pz := mkCp (F := F) (G := G) m0 m0 f0 w f0). set (pz' := mkCp (F := F) (G := G) m0 m0 f0 f0 f0).
  set (p := mkCpx (mkCp (F := F) (G := G) m0 m0 v r0 r1) (Some pz)). set (p' := mkCpx (mkCp (F := F) (G := G) m0 m0 f0 f0 f0) (Some pz')).
  assert (L' : length (c0 :: c1 :: coms) = S (S (S (length xs)))) by (cbn [length]; lia).
  destruct (P _ p L') as [Pw Pc]. destruct (P' _ p' L') as [Pw' Pc'].
  assert (V : forall g, cp_verify_multiple B H chal t g (c0 :: c1 :: coms) p = Ok tt).
  { apply cp_multiple_all; [cbn; lia|]. cbn [p x_zero]. unfold cpx_eqs1, cpx_eqs2, cpx_d. rewrite !Pc, Pw, cp_d_comb. cbn [nth skipn]. unfold opens in *. rewrite Ow. rewrite O0 at 1. rewrite O1.
    unfold cp_eqs. cbn [p pz x_eq cp_z1 cp_z2 cp_z3 cp_c3 cp_c4]. split; [repeat constructor; module_eq|]. split; [cbn [length]; lia|repeat constructor; module_eq]. }
  assert (V' : forall g, cp_verify_multiple B H chal' t g (c0 :: c1 :: coms) p' = Ok tt).
  { apply cp_multiple_all; [cbn; lia|]. cbn [p' x_zero]. unfold cpx_eqs1, cpx_eqs2, cpx_d. rewrite !Pc', Pw', cp_d_comb. cbn [nth skipn].
    unfold cp_eqs. cbn [p' pz' x_eq cp_z1 cp_z2 cp_z3 cp_c3 cp_c4]. split; [repeat constructor; module_eq|]. split; [cbn [length]; lia|repeat constructor; module_eq]. }
  split.
  - exists chal, chal', p, p'. cbv beta zeta. rewrite Pc, Pc'. repeat (split; [reflexivity|]). split; [apply f1_neq_0|]. now split.
  - exists chal, chal', p, p', pz, pz'. cbv zeta. rewrite Pc, Pc'. do 4 (split; [reflexivity|]). split; [exact Pw|]. split; [exact Pw'|]. split; [apply f1_neq_0|]. now split.
Qed.
End Same.
Print Assumptions C29_weights_are_drawn.
Print Assumptions C29_any_weights.
Print Assumptions C29_all_share_one_value.
Print Assumptions C29_one_value_is_answered.

(** Four commitments to 5 in the concrete group of SigmaProps meet the hypotheses, for
    the weights (1, 12) and with the second one changed. *)
Import SigmaCases.
Example C29_same_case :
  let coms := [c1; c2; c3; commit SigmaCases.B SigmaCases.H (n 5) (n 50)] in
  answered_first SigmaCases.B SigmaCases.H [] coms /\ answered_rest SigmaCases.B SigmaCases.H [] coms (f1 :: [n 12]) /\
  answered_rest SigmaCases.B SigmaCases.H [] coms (f1 :: shifted 0 (n 1) [n 12]) /\ (n 1 : K) <> f0.
Proof.
  assert (T : forall j c, nth_error [c1; c2; c3; commit SigmaCases.B SigmaCases.H (n 5) (n 50)] j = Some c -> exists r, opens SigmaCases.B SigmaCases.H c (n 5) r).
  { intros [|[|[|[|[|j]]]]] c A1; cbn in A1; try discriminate; injection A1 as <-; [exists (n 3)|exists (n 8)|exists (n 40)|exists (n 50)]; reflexivity. }
  split; [|split; [|split]].
  - apply (C29_one_value_is_answered SigmaCases.B SigmaCases.H [] _ [n 12] (n 5)); [reflexivity|exact T].
  - apply (C29_one_value_is_answered SigmaCases.B SigmaCases.H [] _ [n 12] (n 5)); [reflexivity|exact T].
  - apply (C29_one_value_is_answered SigmaCases.B SigmaCases.H [] _ (shifted 0 (n 1) [n 12]) (n 5)); [reflexivity|exact T].
  - vm_compute. discriminate.
Qed.
