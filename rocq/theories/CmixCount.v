(** The size of the mix: multiplication gates and variables. *)
From Coq Require Import List Arith NArith ZArith Bool Lia.
From Verif Require Import Base Field PField CmixModel CmixSpec CmixSystem CmixPhase CmixTop.
Import ListNotations.
Local Open Scope F_scope.

Section Count.
Context {F : PField}.
Notation cs := (cs F).
Implicit Types (c : cs).
Definition mc (c : cs) : nat := length (muls c).
Lemma mc_multiply a b c : mc (snd (multiply a b c)) = S (mc c). Proof. unfold mc, multiply. cbn. rewrite app_length. cbn. lia. Qed.
Lemma mc_chain z : forall l prev c, mc (snd (product_chain z prev l c)) = (length l + mc c)%nat.
Proof.
  induction l as [|v l IH]; intros prev c; cbn [product_chain]; [reflexivity|]. pose proof (mc_multiply (lvar prev) (lsub (lvar v) (lconst z)) c) as H. destruct (multiply _ _ c) as [[[? ?] o] c1]. cbn [fst snd] in H. rewrite IH, H. cbn. lia.
Qed.
Lemma mc_product z l c : (2 <= length l)%nat -> mc (snd (product_of z l c)) = (length l - 1 + mc c)%nat.
Proof.
  intros L. unfold product_of. rewrite <- (rev_length l) in *. destruct (rev l) as [|a [|b r]]; cbn in L; try lia.
  pose proof (mc_multiply (lsub (lvar a) (lconst z)) (lsub (lvar b) (lconst z)) c) as H. destruct (multiply _ _ c) as [[[? ?] o] c1]. cbn [fst snd] in H. rewrite mc_chain, H. cbn. lia.
Qed.
Lemma mc_singles k : forall l c, let r := singles k l c in mc (snd r) = (length l + mc c)%nat /\ length (fst (fst r)) = length l /\ length (snd (fst r)) = length l.
Proof.
  induction l as [|[a b] l IH]; intros c; cbn [singles]; [cbn; auto|].
  match goal with |- context [multiply ?p ?q c] => pose proof (mc_multiply p q c) as H; destruct (multiply p q c) as [[[? ?] o] c1] end. cbn [fst snd] in H.
  specialize (IH c1). cbv zeta in *. destruct (singles k l c1) as [[xs ys] c2]. cbn [fst snd length] in *. lia.
Qed.
Definition cost (k : later) : nat := match k with LGate _ _ _ _ => 1 | LShuffle l => length l + 2 * (length l - 1) end.
Lemma mc_run ch c k : (match k with LShuffle l => 2 <= length l | _ => True end)%nat -> mc (run_later ch c k) = (cost k + mc c)%nat.
Proof.
  destruct k as [i1 i2 o1 o2|l]; intros L; cbn [run_later challenge].
  - cbn [nv wit lin muls defer next]. set (c3 := mkCs _ _ _ _ _ _). match goal with |- context [multiply ?p ?q c3] => pose proof (mc_multiply p q c3) as H; destruct (multiply p q c3) as [[[? ?] o] c4] end.
    cbn [fst snd] in H. change (mc (constrain (lvar o) c4)) with (mc c4). rewrite H. reflexivity.
  - set (c1 := mkCs _ _ _ _ _ _). destruct (mc_singles (ch (next c)) l c1) as [H [L1 L2]]. cbv zeta in *. destruct (singles (ch (next c)) l c1) as [[xs ys] c2]. cbn [fst snd] in *.
    unfold list_shuffle. destruct xs as [|x0 [|x1 xs]]; [cbn in L1; lia|cbn in L1; lia|]. cbn [challenge]. set (c3 := mkCs (nv c2) _ _ _ _ _).
    pose proof (mc_product (ch (next c2)) (x0 :: x1 :: xs) c3 ltac:(cbn; lia)) as H3. destruct (product_of _ (x0 :: x1 :: xs) c3) as [o4 c4]. cbn [fst snd] in H3.
    pose proof (mc_product (ch (next c2)) ys c4 ltac:(lia)) as H4. destruct (product_of _ ys c4) as [o5 c5]. cbn [fst snd] in H4.
    change (mc (constrain (lsub (lvar o4) (lvar o5)) c5)) with (mc c5). rewrite H4, H3. change (mc c3) with (mc c2). rewrite H. change (mc c1) with (mc c). cbn [cost]. lia.
Qed.
Fixpoint costs (l : list later) : nat := match l with [] => 0 | k :: l' => (cost k + costs l')%nat end.
Lemma costs_app a b : costs (a ++ b) = (costs a + costs b)%nat. Proof. induction a; cbn; lia. Qed.
Lemma mc_finish ch c : good c -> mc (finish ch c) = (costs (defer c) + mc c)%nat.
Proof.
  intros G. pose proof (g_def c G) as W. unfold finish. generalize (nv c) W. clear G W. generalize (defer c). intros l n W. revert c. induction W as [|k l Wk W IH]; intros c; cbn [fold_left costs]; [reflexivity|].
  rewrite IH, mc_run; [lia|]. destruct k; [exact I|apply Wk].
Qed.
Lemma alloc_nv : forall (l : list (mval F)) c, nv (snd (alloc_values l c)) = (nv c + 2 * length l)%nat /\ muls (snd (alloc_values l c)) = muls c /\ defer (snd (alloc_values l c)) = defer c.
Proof.
  induction l as [|v l IH]; intros c; cbn [alloc_values]; [cbn; repeat split; lia|]. unfold allocate. cbn [nv wit lin muls defer next]. match goal with |- context [alloc_values l ?d] => specialize (IH d); destruct (alloc_values l d) as [vs c3] end.
  cbn [fst snd nv length muls defer] in *. destruct IH as [A [B D]]. repeat split; auto; lia.
Qed.
Lemma side_nv vars (U Y M : list (mval F)) c : let c' := snd (side_gen vars U Y M c) in nv c' = (nv c + 2 * (length U + length Y + length M))%nat /\ muls c' = muls c.
Proof.
  cbv zeta. unfold side_gen. pose proof (alloc_nv U c) as A. destruct (alloc_values U c) as [sv c1]. pose proof (alloc_nv Y c1) as B. destruct (alloc_values Y c1) as [iv c2]. pose proof (alloc_nv M c2) as D. destruct (alloc_values M c2) as [mv c3].
  cbn [fst snd] in *. rewrite fold_specify. cbn [nv muls]. destruct A as [A1 [A2 _]], B as [B1 [B2 _]], D as [D1 [D2 _]]. split; [lia|congruence].
Qed.
Lemma range_nv : forall bits (e : F) var c, let c' := snd (range_loop bits e var c) in nv c' = (nv c + 3 * length bits)%nat /\ mc c' = (mc c + length bits)%nat.
Proof.
  induction bits as [|b bits IH]; intros e var c; cbn [range_loop]; [cbn; lia|]. unfold allocate_multiplier. cbv zeta iota. match goal with |- context [range_loop bits ?e ?v ?d] => destruct (IH e v d) as [A B] end.
  rewrite A, B. unfold mc. cbn. rewrite app_length. cbn. lia.
Qed.
Lemma ranges_nv : forall outs bits c, length bits = length outs -> Forall (fun b => length b = 64%nat) bits -> nv (ranges outs bits c) = (nv c + 192 * length outs)%nat /\ mc (ranges outs bits c) = (mc c + 64 * length outs)%nat.
Proof.
  induction outs as [|o outs IH]; intros [|b bits] c L B; try discriminate L; cbn [ranges length]; [lia|]. inversion B as [|? ? B1 B2]; subst. injection L as L.
  pose proof (range_nv b 1 (lvar (v_amount o)) c) as H. destruct (range_loop b 1 (lvar (v_amount o)) c) as [v c1]. cbn [fst snd] in H. destruct H as [H1 H2]. destruct (IH bits (constrain v c1) L B2) as [A C]. rewrite A, C. change (mc (constrain v c1)) with (mc c1). cbn [constrain nv]. lia.
Qed.
Lemma gates_cost a b o i : costs (gates_for a b o i) = length (gates_for a b o i).
Proof. unfold gates_for. induction (combine (combine (combine a b) o) i); cbn; auto. Qed.
Lemma side_defer vars (U Y M : list (mval F)) c : good c -> (2 <= length vars)%nat -> sized (length vars) U Y M ->
  costs (defer (snd (side_gen vars U Y M c))) = (costs (defer c) + gates_of (length vars))%nat /\ length (fst (side_gen vars U Y M c)) = length vars.
Proof.
  intros G L2 [LM [[E _]|[_ [LU LY]]]]; [lia|]. unfold side_gen.
  destruct (alloc_ok U c G) as [V1 [G1 [_ [D1 _]]]]. cbv zeta in *. destruct (alloc_values U c) as [sv c1]. cbn [fst snd] in *.
  destruct (alloc_ok Y c1 G1) as [V2 [G2 [_ [D2 _]]]]. cbv zeta in *. destruct (alloc_values Y c1) as [iv c2]. cbn [fst snd] in *.
  destruct (alloc_ok M c2 G2) as [V3 [_ [_ [D3 _]]]]. cbv zeta in *. destruct (alloc_values M c2) as [mv c3]. cbn [fst snd] in *.
  assert (Ls : length sv = length U) by (rewrite V1; apply fresh_length). assert (Li : length iv = length Y) by (rewrite V2; apply fresh_length). assert (Lm : length mv = length M) by (rewrite V3; apply fresh_length).
  split; [|congruence]. rewrite fold_specify. cbn [defer]. rewrite costs_app. destruct D1 as [_ [_ [D1 _]]], D2 as [_ [_ [D2 _]]], D3 as [_ [_ [D3 _]]]. rewrite D3, D2, D1. f_equal.
  destruct sv as [|s0 s]; [cbn in Ls; lia|]. destruct mv as [|m0 m]; [cbn in Lm; lia|]. cbn [side_items costs cost]. rewrite gates_cost. unfold gates_for. rewrite map_length, !combine_length, removelast_length, app_length. unfold gates_of.
  replace (Nat.eqb (length vars) 1) with false by (symmetry; apply Nat.eqb_neq; lia). cbn [length] in *. lia.
Qed.
(** The generators reserved for a mix are exactly those it uses: one for every multiplication
    gate and one for every two variables allocated otherwise. *)
Theorem generators_exact (ch : nat -> F) n m : (2 <= n)%nat -> (2 <= m)%nat ->
  exists iv ov c pairs, verifier_system (F := F) n m = Ok (iv, ov, c) /\ nv c = (2 * (n + m) + 3 * length (muls c) + 2 * pairs)%nat /\
    asset_mix_num_generators n m = Ok (length (muls (finish ch c)) + pairs)%nat.
Proof.
  intros Hn Hm. pose proof (verifier_eq (F := F) n m ltac:(lia) ltac:(lia)) as Q. pose proof (committed_ok (F := F) (repeat dval n) (repeat dval m)) as K.
  destruct (committed (repeat dval n) (repeat dval m)) as [[iv ov] c] eqn:EC. destruct K as [G [Wi [Wo [Li [Lo [_ [_ [Dc [_ [Mc [_ [Ei Eo]]]]]]]]]]]]. rewrite repeat_length in *.
  assert (Nc : nv c = (2 * (n + m))%nat).
  { unfold committed in EC. pose proof (alloc_nv (repeat dval n) (empty (F := F))) as A. destruct (alloc_values (repeat dval n) empty) as [a c1]. pose proof (alloc_nv (repeat dval m) c1) as B. destruct (alloc_values (repeat dval m) c1) as [b c2]. injection EC as _ _ <-. cbn [fst snd] in *. rewrite !repeat_length in *. cbn [empty nv] in A. lia. }
  pose proof (vals_sized (F := F) n None ltac:(lia) I) as Zi. pose proof (vals_sized (F := F) m None ltac:(lia) I) as Zo.
  destruct (vals n None) as [[U Y] M], (vals m None) as [[U' Y'] M']. cbn [fst snd] in Zi, Zo.
  destruct (gen_ok (fun _ => True) 0 iv ov U Y M U' Y' M' (pads n m) (bitsl (F := F) m None) c I G Wi Wo) as [Gg _]; rewrite ?Li, ?Lo; auto; try lia; [apply pads_length|apply repeat_length|apply bits64|]. cbv zeta in Gg.
  set (c' := mix_gen iv U Y M ov U' Y' M' (pads n m) (bitsl (F := F) m None) c) in *.
  exists iv, ov, c', (3 * n - 2 + (3 * m - 2) + (Nat.max n m - Nat.min n m))%nat. split; [exact Q|].
  assert (X : nv c' = (2 * (n + m) + 2 * (3 * n - 2 + (3 * m - 2) + (Nat.max n m - Nat.min n m)) + 192 * m)%nat /\ mc c' = (64 * m)%nat /\ costs (defer c') = (gates_of n + gates_of m + (3 * Nat.max n m - 2))%nat).
  { unfold c', mix_gen. rewrite <- Li in Zi. rewrite <- Lo in Zo.
    pose proof (side_nv iv U Y M c) as [A1 A2]. destruct (side_defer iv U Y M c G ltac:(lia) Zi) as [A3 A4]. destruct (side_ok (fun _ => True) 0 iv U Y M c I G Wi Zi) as [_ [_ [G1 _]]].
    destruct (side_gen iv U Y M c) as [mi c1]. cbn [fst snd] in *.
    pose proof (side_nv ov U' Y' M' c1) as [B1 B2]. destruct (side_defer ov U' Y' M' c1 G1 ltac:(lia) Zo) as [B3 B4].
    destruct (side_gen ov U' Y' M' c1) as [mo c2]. cbn [fst snd] in *.
    pose proof (alloc_nv (pads n m) c2) as [C1 [C2 C3]]. destruct (alloc_values (pads n m) c2) as [pv c3] eqn:EP. cbn [fst snd] in *. rewrite pads_length in C1.
    assert (LP : length pv = (Nat.max n m - Nat.min n m)%nat).
    { transitivity (length (fst (alloc_values (pads n m) c2))); [now rewrite EP|]. clear. rewrite <- (pads_length (F := F) n m). generalize (pads (F := F) n m). intros l. revert c2. induction l as [|v l IH]; intros c2; [reflexivity|]. cbn [alloc_values]. unfold allocate. cbn [nv]. match goal with |- context [alloc_values l ?d] => specialize (IH d); destruct (alloc_values l d) end. cbn in *. lia. }
    rewrite Li, Lo in *. destruct (pad_lengths n m mi mo pv) as [P1 P2]; auto.
    assert (LG : nv (last_gadget (padl n m mi pv) (padr n m mo pv) c3) = nv c3 /\ mc (last_gadget (padl n m mi pv) (padr n m mo pv) c3) = mc c3 /\ costs (defer (last_gadget (padl n m mi pv) (padr n m mo pv) c3)) = (costs (defer c3) + (3 * Nat.max n m - 2))%nat).
    { assert (X : last_gadget (padl n m mi pv) (padr n m mo pv) c3 = specify (LShuffle (combine (padl n m mi pv) (padr n m mo pv))) c3) by (destruct (padl n m mi pv) as [|a [|b l]]; [cbn in P1; lia|cbn in P1; lia|destruct (padr n m mo pv); reflexivity]).
      rewrite X. cbn [specify nv defer]. rewrite costs_app. cbn [costs cost]. rewrite combine_length, P1, P2, Nat.min_id. split; [reflexivity|split; [reflexivity|lia]]. }
    destruct LG as [LG1 [LG2 LG3]]. set (c4 := last_gadget _ _ c3) in *.
    assert (RD : forall bits c4, defer (ranges ov bits c4) = defer c4).
    { clear. induction ov as [|o ov IH]; intros [|b bits] c4; cbn [ranges]; auto. 
      assert (RL : forall bits (e : F) var c, defer (snd (range_loop bits e var c)) = defer c) by (clear; induction bits as [|x bits IHb]; intros e var c; cbn [range_loop]; [reflexivity|]; unfold allocate_multiplier; cbv zeta iota; rewrite IHb; reflexivity).
      specialize (RL b 1 (lvar (v_amount o)) c4). destruct (range_loop b 1 (lvar (v_amount o)) c4) as [v c1]. cbn [snd] in RL. rewrite IH. exact RL. }
    destruct (ranges_nv ov (bitsl (F := F) m None) c4) as [R1 R2]; [rewrite Lo; apply repeat_length|apply bits64|]. rewrite Lo in R1, R2. rewrite R1, R2, RD.
    unfold mc in *. rewrite LG1, LG2, LG3, C1, C2, C3, B1, B2, B3, A1, A2, A3, Dc, Mc, Nc. destruct Zi as [Z1 [[Z2 _]|[_ [Z3 Z4]]]], Zo as [Z1' [[Z2' _]|[_ [Z3' Z4']]]]; try lia. cbn [costs length]. lia. }
  destruct X as [X1 [X2 X3]]. unfold mc in X2. split; [rewrite X1, X2; lia|].
  pose proof (mc_finish ch c' Gg) as FM. unfold mc in FM. rewrite FM, X2, X3. unfold asset_mix_num_generators, csub, gates_of.
  repeat match goal with |- context [Nat.ltb ?a ?b] => replace (Nat.ltb a b) with false by (symmetry; apply Nat.ltb_ge; lia) end. cbn [bind]. f_equal.
  replace (Nat.eqb n 1) with false by (symmetry; apply Nat.eqb_neq; lia). replace (Nat.eqb m 1) with false by (symmetry; apply Nat.eqb_neq; lia). lia.
Qed.
End Count.
