(** Proofs about the Merkle tree model. *)
From Coq Require Import List ZArith NArith Bool Lia ZifyBool ZifyNat ZifyN.
From Verif Require Import Base MerkleModel MerkleSpec.
Import ListNotations.
Local Open Scope N_scope.
Ltac Zify.zify_post_hook ::= Z.div_mod_to_equations.

(** ** Geometry of node keys *)
Lemma pow3_S n : 3 ^ N.of_nat (S n) = 3 * 3 ^ N.of_nat n.
Proof. rewrite Nat2N.inj_succ, N.pow_succ_r'. reflexivity. Qed.

Lemma pow3_pos n : 0 < 3 ^ N.of_nat n.
Proof. apply N.neq_0_lt_0, N.pow_nonzero. discriminate. Qed.

Lemma geom_S n : geom (S n) = 3 * geom n + 1.
Proof.
  induction n as [|n IH]; [reflexivity|].
  change (geom (S (S n))) with (geom (S n) + 3 ^ N.of_nat (S n)).
  rewrite IH at 1. rewrite pow3_S.
  change (geom (S n)) with (geom n + 3 ^ N.of_nat n). lia.
Qed.

Lemma geom_next n : geom (S n) = geom n + 3 ^ N.of_nat n.
Proof. reflexivity. Qed.

Lemma geom_mono n m : (n <= m)%nat -> geom n <= geom m.
Proof. induction 1 as [|m _ IH]; [lia|]. rewrite geom_next. lia. Qed.

Definition K (l : nat) (i : N) : N := geom l + i.

Lemma K_inj l i l' i' :
  i < 3 ^ N.of_nat l -> i' < 3 ^ N.of_nat l' -> K l i = K l' i' -> l = l' /\ i = i'.
Proof.
  intros Hi Hi' H. unfold K in H.
  destruct (Nat.lt_trichotomy l l') as [Hl|[Hl|Hl]].
  - pose proof (geom_mono (S l) l' Hl) as G. rewrite geom_next in G. lia.
  - subst. lia.
  - pose proof (geom_mono (S l') l Hl) as G. rewrite geom_next in G. lia.
Qed.

Lemma geom_20 : geom 20 = LEAF_START.
Proof. reflexivity. Qed.

Lemma K_small l i : (l <= 20)%nat -> i < 3 ^ N.of_nat l -> K l i < 256 ^ N.of_nat 8.
Proof.
  intros Hl Hi. unfold K. pose proof (geom_mono (S l) 21 ltac:(lia)) as G.
  rewrite geom_next in G.
  assert (E : geom 21 = 5230176601) by reflexivity. rewrite E in G. clear E.
  assert (E8 : 256 ^ N.of_nat 8 = 18446744073709551616) by reflexivity. rewrite E8. lia.
Qed.

Definition dir (i : N) : tree_path :=
  match i mod 3 with 0 => PLeft | 1 => PMiddle | _ => PRight end.

Lemma mod3_cases i : i mod 3 = 0 \/ i mod 3 = 1 \/ i mod 3 = 2.
Proof. lia. Qed.

Lemma path_step_K l i : path_step (K (S l) i) = ((K (S l) i, dir i), K l (i / 3)).
Proof.
  unfold path_step, dir, K. rewrite geom_S. set (g := geom l).
  destruct (mod3_cases i) as [E|[E|E]]; rewrite E.
  - replace ((3 * g + 1 + i) mod 3) with 1 by lia.
    f_equal. lia.
  - replace ((3 * g + 1 + i) mod 3) with 2 by lia.
    f_equal. lia.
  - replace ((3 * g + 1 + i) mod 3) with 0 by lia.
    destruct (N.eqb_spec (3 * g + 1 + i) 0) as [E'|E']; [lia|].
    f_equal. lia.
Qed.

Lemma path_step_fst k : fst (fst (path_step k)) = k.
Proof. unfold path_step. destruct (k mod 3) as [|[[]|[]|]]; reflexivity. Qed.

Fixpoint spec_path (l : nat) (i : N) : list (N * tree_path) :=
  match l with
  | O => [(0, PRight)]
  | S l' => (K l i, dir i) :: spec_path l' (i / 3)
  end.

Lemma div3_lt i l : i < 3 ^ N.of_nat (S l) -> i / 3 < 3 ^ N.of_nat l.
Proof. rewrite pow3_S. intros H. apply N.div_lt_upper_bound; lia. Qed.

Lemma path_loop_spec l i :
  i < 3 ^ N.of_nat l -> path_loop (S l) (K l i) = spec_path l i.
Proof.
  revert i; induction l as [|l IH]; intros i Hi.
  - cbn in Hi. assert (i = 0) by lia. subst. reflexivity.
  - change (path_loop (S (S l)) (K (S l) i)) with
      (let '(e, key') := path_step (K (S l) i) in e :: path_loop (S l) key').
    rewrite path_step_K. rewrite (IH _ (div3_lt _ _ Hi)). reflexivity.
Qed.

Lemma get_path_keys_spec uid : uid < 3 ^ 20 -> get_path_keys uid = spec_path 20 uid.
Proof. intros H. exact (path_loop_spec 20 uid H). Qed.

Lemma three_siblings_K l i :
  three_siblings (K (S l) i) (dir i) =
  (K (S l) (3 * (i / 3)), K (S l) (3 * (i / 3) + 1), K (S l) (3 * (i / 3) + 2)).
Proof.
  unfold three_siblings, dir, K. rewrite geom_S.
  destruct (mod3_cases i) as [E|[E|E]]; rewrite E; (f_equal; [f_equal|]; lia).
Qed.

Lemma two_siblings_K l i :
  two_siblings (K (S l) i) (dir i) =
  match i mod 3 with
  | 0 => (K (S l) (3 * (i / 3) + 1), K (S l) (3 * (i / 3) + 2))
  | 1 => (K (S l) (3 * (i / 3)), K (S l) (3 * (i / 3) + 2))
  | _ => (K (S l) (3 * (i / 3)), K (S l) (3 * (i / 3) + 1))
  end.
Proof.
  unfold two_siblings, dir, K. rewrite geom_S.
  destruct (mod3_cases i) as [E|[E|E]]; rewrite E; (f_equal; lia).
Qed.

(** ** Store keys *)
Lemma store_key_inj k k' :
  k < 256 ^ N.of_nat 8 -> k' < 256 ^ N.of_nat 8 -> store_key k = store_key k' -> k = k'.
Proof.
  intros Hk Hk' H. unfold store_key in H. apply app_inv_head in H.
  eapply be_bytes_inj; eassumption.
Qed.

Lemma store_key_not_count k : store_key k <> ENTRY_COUNT_KEY.
Proof.
  intros H. apply (f_equal (@length N)) in H.
  unfold store_key in H. rewrite app_length, be_bytes_length in H. cbn in H. lia.
Qed.

Lemma kv_set_same s k v : kv_set s k v k = Some v.
Proof. unfold kv_set. destruct (bytes_eqb_spec k k); congruence. Qed.

Lemma kv_set_other s k v k' : k <> k' -> kv_set s k v k' = s k'.
Proof. intros H. unfold kv_set. destruct (bytes_eqb_spec k k'); congruence. Qed.

(** ** Cache *)
Lemma cache_get_set c k v k' :
  cache_get (cache_set c k v) k' = if k =? k' then Some v else cache_get c k'.
Proof.
  induction c as [|[k0 v0] c IH]; cbn [cache_set cache_get].
  - reflexivity.
  - destruct (N.eqb_spec k0 k) as [->|Hn]; cbn [cache_get].
    + destruct (N.eqb_spec k k'); reflexivity.
    + rewrite IH. destruct (N.eqb_spec k0 k') as [->|Hn']; [|reflexivity].
      destruct (N.eqb_spec k k'); congruence.
Qed.

Lemma cache_set_keys c k v x :
  In x (map fst (cache_set c k v)) <-> x = k \/ In x (map fst c).
Proof.
  induction c as [|[k0 v0] c IH]; cbn [cache_set map fst In].
  - intuition.
  - destruct (N.eqb_spec k0 k) as [->|Hn]; cbn [map fst In]; [intuition|].
    rewrite IH. intuition.
Qed.

Lemma cache_set_nodup c k v : NoDup (map fst c) -> NoDup (map fst (cache_set c k v)).
Proof.
  induction c as [|[k0 v0] c IH]; cbn [cache_set map fst]; intros Hd.
  - constructor; [intros []|constructor].
  - inversion Hd as [|? ? Hni Hd']; subst.
    destruct (N.eqb_spec k0 k) as [->|Hn]; cbn [map fst].
    + constructor; assumption.
    + constructor; [|apply IH; exact Hd'].
      rewrite cache_set_keys. intros [E|E]; [congruence|contradiction].
Qed.

Lemma cache_get_none c k : ~ In k (map fst c) -> cache_get c k = None.
Proof.
  induction c as [|[k0 v0] c IH]; cbn; [reflexivity|]. intros H.
  destruct (N.eqb_spec k0 k) as [->|Hn]; [exfalso; apply H; left; reflexivity|].
  apply IH. intros E; apply H; right; exact E.
Qed.

Lemma flush_get c s k :
  NoDup (map fst c) ->
  (forall x, In x (map fst c) -> x < 256 ^ N.of_nat 8) -> k < 256 ^ N.of_nat 8 ->
  flush s c (store_key k) = match cache_get c k with Some v => Some v | None => s (store_key k) end.
Proof.
  unfold flush. revert s; induction c as [|[k0 v0] c IH]; intros s Hd Hb Hk; cbn.
  - reflexivity.
  - inversion Hd as [|? ? Hni Hd']; subst.
    rewrite IH; [|exact Hd'|intros x Hx; apply Hb; right; exact Hx|exact Hk].
    destruct (N.eqb_spec k0 k) as [->|Hn].
    + rewrite (cache_get_none c k Hni). apply kv_set_same.
    + destruct (cache_get c k); [reflexivity|].
      apply kv_set_other. intros E. apply Hn.
      eapply store_key_inj; [apply Hb; left; reflexivity|exact Hk|exact E].
Qed.

Lemma flush_count c s : flush s c ENTRY_COUNT_KEY = s ENTRY_COUNT_KEY.
Proof.
  unfold flush. revert s; induction c as [|[k0 v0] c IH]; intros s; cbn; [reflexivity|].
  rewrite IH. apply kv_set_other. apply store_key_not_count.
Qed.

Section P.
Context (S : hashsys).
Notation A := (HA S).
Notation sub := (subtree (Hz S) (H3 S)).
Notation len l := (N.of_nat (length l)).

(** ** Facts on the abstract tree *)
Lemma subtree_empty (ls : list A) h i : len ls <= i * 3 ^ N.of_nat h -> sub ls h i = Hz S.
Proof.
  intros H. destruct h; cbn [subtree]; rewrite (proj2 (N.leb_le _ _) H); reflexivity.
Qed.

Lemma subtree_leaf (ls : list A) i : i < len ls -> sub ls 0 i = nth (N.to_nat i) ls (Hz S).
Proof.
  intros H. cbn [subtree]. change (3 ^ N.of_nat 0) with 1.
  destruct (N.leb_spec (len ls) (i * 1)); [lia|reflexivity].
Qed.

Lemma subtree_node (ls : list A) h i : i * 3 ^ N.of_nat (Datatypes.S h) < len ls ->
  sub ls (Datatypes.S h) i =
  H3 S (sub ls h (3 * i)) (sub ls h (3 * i + 1)) (sub ls h (3 * i + 2)).
Proof.
  intros H. cbn [subtree].
  destruct (N.leb_spec (len ls) (i * 3 ^ N.of_nat (Datatypes.S h))); [lia|reflexivity].
Qed.

Lemma div_pow3_S n h : n / 3 ^ N.of_nat (Datatypes.S h) = n / 3 ^ N.of_nat h / 3.
Proof.
  rewrite pow3_S, N.mul_comm. rewrite N.div_div; [reflexivity| |lia].
  pose proof (pow3_pos h); lia.
Qed.

Lemma subtree_off_path (ls : list A) x h i :
  i <> len ls / 3 ^ N.of_nat h -> sub (ls ++ [x]) h i = sub ls h i.
Proof.
  revert i; induction h as [|h IH]; intros i Hi.
  - change (3 ^ N.of_nat 0) with 1 in Hi. rewrite N.div_1_r in Hi.
    cbn [subtree]. change (3 ^ N.of_nat 0) with 1.
    rewrite app_length; cbn [length].
    destruct (N.leb_spec (len ls) (i * 1)), (N.leb_spec (N.of_nat (length ls + 1)) (i * 1));
      try lia; try reflexivity.
    rewrite app_nth1 by lia. reflexivity.
  - rewrite div_pow3_S in Hi. set (q := len ls / 3 ^ N.of_nat h) in *.
    cbn [subtree]. rewrite app_length; cbn [length].
    rewrite !IH by (fold q; lia).
    pose proof (pow3_pos (Datatypes.S h)) as Hp.
    destruct (N.leb_spec (len ls) (i * 3 ^ N.of_nat (Datatypes.S h)));
    destruct (N.leb_spec (N.of_nat (length ls + 1)) (i * 3 ^ N.of_nat (Datatypes.S h)));
      try lia; try reflexivity.
    assert (E : len ls = i * 3 ^ N.of_nat (Datatypes.S h)) by lia.
    exfalso. apply Hi. unfold q. rewrite <- div_pow3_S, E, N.div_mul by lia. reflexivity.
Qed.

Lemma subtree_on_path_leaf (ls : list A) x : sub (ls ++ [x]) 0 (len ls) = x.
Proof.
  rewrite subtree_leaf by (rewrite app_length; cbn; lia).
  rewrite Nat2N.id. rewrite app_nth2 by lia. rewrite Nat.sub_diag. reflexivity.
Qed.

Lemma mul_div_pow3 n h : n / 3 ^ N.of_nat h * 3 ^ N.of_nat h <= n.
Proof. rewrite N.mul_comm. apply N.mul_div_le. pose proof (pow3_pos h); lia. Qed.

Lemma div_lt_pow3 n l h : (l + h = 20)%nat -> n < 3 ^ 20 -> n / 3 ^ N.of_nat h < 3 ^ N.of_nat l.
Proof.
  intros Hlh Hn. apply N.div_lt_upper_bound; [pose proof (pow3_pos h); lia|].
  rewrite <- N.pow_add_r. replace (N.of_nat h + N.of_nat l) with 20 by lia. exact Hn.
Qed.

(** ** The invariant: the store holds exactly the abstract tree *)
Record Inv (ls : list A) (s : kv) : Prop := {
  inv_cap : len ls <= 3 ^ 20;
  inv_node : forall l h i, (l + h = 20)%nat -> i < 3 ^ N.of_nat l ->
    s (store_key (K l i)) =
    if (len ls <=? i * 3 ^ N.of_nat h) && negb (Nat.eqb l 0) then None
    else Some (Henc S (sub ls h i));
  inv_out : forall k, geom 21 <= k -> k < 256 ^ N.of_nat 8 -> s (store_key k) = None;
  inv_count : s ENTRY_COUNT_KEY = Some (be_bytes 8 (len ls));
}.

Lemma inv_read ls s l h i : Inv ls s -> (l + h = 20)%nat -> i < 3 ^ N.of_nat l ->
  read_default S s (K l i) = Ok (sub ls h i).
Proof.
  intros HI Hlh Hi. unfold read_default, dec_res. rewrite (inv_node _ _ HI l h i Hlh Hi).
  destruct (N.leb_spec (len ls) (i * 3 ^ N.of_nat h)) as [E|E]; cbn [andb].
  - destruct (Nat.eqb l 0); cbn [negb].
    + rewrite Hdec_enc. reflexivity.
    + rewrite subtree_empty by exact E. reflexivity.
  - rewrite Hdec_enc. reflexivity.
Qed.

Lemma inv_exists ls s l h i : Inv ls s -> (l + h = 20)%nat -> i < 3 ^ N.of_nat l ->
  i * 3 ^ N.of_nat h < len ls -> s (store_key (K l i)) = Some (Henc S (sub ls h i)).
Proof.
  intros HI Hlh Hi Hn. rewrite (inv_node _ _ HI l h i Hlh Hi).
  destruct (N.leb_spec (len ls) (i * 3 ^ N.of_nat h)); [lia|]. reflexivity.
Qed.

(** ** Insertion *)
Lemma be8_small n : n <= 3 ^ 20 -> n < 256 ^ N.of_nat 8.
Proof.
  assert (E : 3 ^ 20 = 3486784401) by reflexivity.
  assert (E8 : 256 ^ N.of_nat 8 = 18446744073709551616) by reflexivity. rewrite E, E8. lia.
Qed.

(** Cache contents when the loop stands at level [l]. *)
Record CInv (ls : list A) (x : A) (l : nat) (c : cache) : Prop := {
  c_nodup : NoDup (map fst c);
  c_small : forall k, In k (map fst c) -> k < geom 21;
  c_get : forall l' h' i', (l' + h' = 20)%nat -> i' < 3 ^ N.of_nat l' ->
    cache_get c (K l' i') =
    if Nat.leb l l' && (i' =? len ls / 3 ^ N.of_nat h')
    then Some (Henc S (sub (ls ++ [x]) h' i')) else None;
}.

Lemma cinv_parse ls x s l c h i : Inv ls s -> len ls < 3 ^ 20 -> CInv ls x (Datatypes.S l) c ->
  (Datatypes.S l + h = 20)%nat -> i < 3 ^ N.of_nat (Datatypes.S l) ->
  parse_hash S s c (K (Datatypes.S l) i) = Ok (sub (ls ++ [x]) h i).
Proof.
  intros HI Hn HC Hlh Hi. unfold parse_hash.
  rewrite (c_get _ _ _ _ HC _ h i Hlh Hi). rewrite Nat.leb_refl. cbn [andb].
  destruct (N.eqb_spec i (len ls / 3 ^ N.of_nat h)) as [E|E].
  - unfold dec_res. rewrite Hdec_enc. reflexivity.
  - rewrite subtree_off_path by exact E.
    exact (inv_read _ _ _ _ _ HI Hlh Hi).
Qed.

Lemma K_lt_21 l i : (l <= 20)%nat -> i < 3 ^ N.of_nat l -> K l i < geom 21.
Proof.
  intros Hl Hi. unfold K. pose proof (geom_mono (Datatypes.S l) 21 ltac:(lia)) as G.
  rewrite geom_next in G. lia.
Qed.

Lemma cinv_set ls x l h c : len ls < 3 ^ 20 -> CInv ls x (Datatypes.S l) c -> (l + h = 20)%nat ->
  CInv ls x l (cache_set c (K l (len ls / 3 ^ N.of_nat h))
                 (Henc S (sub (ls ++ [x]) h (len ls / 3 ^ N.of_nat h)))).
Proof.
  intros Hn HC Hlh. pose proof (div_lt_pow3 _ l h Hlh Hn) as Hq. split.
  - apply cache_set_nodup, HC.
  - intros k Hk. apply cache_set_keys in Hk as [->|Hk]; [apply K_lt_21; [lia|exact Hq]|].
    apply (c_small _ _ _ _ HC k Hk).
  - intros l' h' i' Hlh' Hi'. rewrite cache_get_set.
    destruct (N.eqb_spec (K l (len ls / 3 ^ N.of_nat h)) (K l' i')) as [E|E].
    + apply K_inj in E as [-> <-]; [|exact Hq|exact Hi'].
      assert (h' = h) by lia. subst. rewrite Nat.leb_refl, N.eqb_refl. reflexivity.
    + rewrite (c_get _ _ _ _ HC l' h' i' Hlh' Hi').
      destruct (Nat.leb_spec (Datatypes.S l) l'), (Nat.leb_spec l l'); try lia; cbn [andb];
        try reflexivity.
      destruct (N.eqb_spec i' (len ls / 3 ^ N.of_nat h')) as [E'|E']; [|reflexivity].
      exfalso. assert (l = l') by lia. subst. assert (h' = h) by lia. subst. apply E; reflexivity.
Qed.

Lemma add_loop_spec ls x s : Inv ls s -> len ls < 3 ^ 20 -> forall l h c,
  (l + h = 20)%nat -> CInv ls x l c ->
  exists c', add_loop S s l (spec_path l (len ls / 3 ^ N.of_nat h)) c = Ok c' /\ CInv ls x 0 c'.
Proof.
  intros HI Hn. induction l as [|l IH]; intros h c Hlh HC.
  - exists c. split; [reflexivity|exact HC].
  - set (q := len ls / 3 ^ N.of_nat h).
    assert (Hq : q < 3 ^ N.of_nat (Datatypes.S l)) by (apply div_lt_pow3; [exact Hlh|exact Hn]).
    assert (Hq3 : q / 3 = len ls / 3 ^ N.of_nat (Datatypes.S h)) by (symmetry; apply div_pow3_S).
    assert (Hhd : exists p rest, spec_path l (q / 3) = (K l (q / 3), p) :: rest).
    { destruct l as [|l]; cbn [spec_path]; [|eauto].
      exists PRight, []. f_equal. unfold K. cbn in Hq. cbn [geom]. f_equal. lia. }
    destruct Hhd as (p & rest & Hhd).
    change (spec_path (Datatypes.S l) q) with ((K (Datatypes.S l) q, dir q) :: spec_path l (q / 3)).
    cbn [add_loop]. rewrite Hhd. rewrite three_siblings_K.
    assert (Hb : 3 * (q / 3) + 2 < 3 ^ N.of_nat (Datatypes.S l)).
    { pose proof (div3_lt _ _ Hq). rewrite pow3_S. lia. }
    rewrite !(cinv_parse ls x s l c h _ HI Hn HC Hlh) by lia. cbn [bind].
    assert (Hnode : H3 S (sub (ls ++ [x]) h (3 * (q / 3))) (sub (ls ++ [x]) h (3 * (q / 3) + 1))
                (sub (ls ++ [x]) h (3 * (q / 3) + 2)) = sub (ls ++ [x]) (Datatypes.S h) (q / 3)).
    { symmetry. apply subtree_node. rewrite app_length; cbn [length].
      rewrite Hq3. pose proof (mul_div_pow3 (len ls) (Datatypes.S h)). lia. }
    rewrite Hnode, <- Hhd, Hq3.
    apply (IH (Datatypes.S h)); [lia|]. apply cinv_set; [exact Hn|exact HC|lia].
Qed.

Lemma cinv_leaf ls x : len ls < 3 ^ 20 ->
  CInv ls x 20 (cache_set [] (K 20 (len ls)) (Henc S x)).
Proof.
  intros Hn. split.
  - cbn [cache_set map fst]. constructor; [intros []|constructor].
  - cbn [cache_set map fst In]. intros k [<-|[]]. apply K_lt_21; [lia|exact Hn].
  - intros l' h' i' Hlh' Hi'. rewrite cache_get_set. cbn [cache_get].
    destruct (N.eqb_spec (K 20 (len ls)) (K l' i')) as [E|E].
    + apply K_inj in E as [<- <-]; [|exact Hn|exact Hi']. assert (h' = 0%nat) by lia. subst.
      change (3 ^ N.of_nat 0) with 1. rewrite N.div_1_r, N.eqb_refl.
      rewrite subtree_on_path_leaf. reflexivity.
    + destruct (Nat.leb_spec 20 l'); [|reflexivity].
      assert (l' = 20%nat) by lia. assert (h' = 0%nat) by lia. subst.
      change (3 ^ N.of_nat 0) with 1. rewrite N.div_1_r.
      destruct (N.eqb_spec i' (len ls)); [subst; congruence|reflexivity].
Qed.

Lemma add_inv t x ls : t_count t = len ls -> Inv ls (t_view t) -> len ls < 3 ^ 20 ->
  exists t', add_commitment_hash S t x = Ok (len ls, t') /\ t_count t' = len (ls ++ [x]) /\
             t_db t' = t_db t /\ Inv (ls ++ [x]) (t_view t').
Proof.
  intros Hc HI Hn. unfold add_commitment_hash, TREE_DEPTH. rewrite Hc.
  rewrite get_path_keys_spec by exact Hn.
  change (spec_path 20 (len ls)) with
    ((K 20 (len ls), dir (len ls)) :: spec_path 19 (len ls / 3)).
  cbv zeta. cbn [fst].
  change ((K 20 (len ls), dir (len ls)) :: spec_path 19 (len ls / 3)) with (spec_path 20 (len ls)).
  replace (spec_path 20 (len ls)) with (spec_path 20 (len ls / 3 ^ N.of_nat 0))
    by (change (3 ^ N.of_nat 0) with 1; rewrite N.div_1_r; reflexivity).
  destruct (add_loop_spec ls x (t_view t) HI Hn 20 0 _ eq_refl (cinv_leaf ls x Hn))
    as (c & -> & HC).
  cbn [bind]. eexists. split; [reflexivity|]. cbn [t_count t_db t_view].
  split; [rewrite app_length; cbn; lia|]. split; [reflexivity|].
  assert (Hsm : forall k, In k (map fst c) -> k < 256 ^ N.of_nat 8).
  { intros k Hk. pose proof (c_small _ _ _ _ HC k Hk).
    assert (E : geom 21 = 5230176601) by reflexivity.
    assert (E8 : 256 ^ N.of_nat 8 = 18446744073709551616) by reflexivity. lia. }
  split.
  - rewrite app_length; cbn [length]. lia.
  - intros l h i Hlh Hi.
    rewrite kv_set_other by (intros E; symmetry in E; revert E; apply store_key_not_count).
    rewrite flush_get; [|apply HC|exact Hsm|apply K_small; [lia|exact Hi]].
    rewrite (c_get _ _ _ _ HC l h i Hlh Hi). cbn [Nat.leb andb].
    destruct (N.eqb_spec i (len ls / 3 ^ N.of_nat h)) as [E|E].
    + rewrite app_length; cbn [length]. pose proof (mul_div_pow3 (len ls) h) as Hm.
      rewrite <- E in Hm.
      destruct (N.leb_spec (N.of_nat (length ls + 1)) (i * 3 ^ N.of_nat h)); [lia|]. reflexivity.
    + rewrite (inv_node _ _ HI l h i Hlh Hi). rewrite subtree_off_path by exact E.
      rewrite app_length; cbn [length].
      destruct (N.leb_spec (len ls) (i * 3 ^ N.of_nat h));
      destruct (N.leb_spec (N.of_nat (length ls + 1)) (i * 3 ^ N.of_nat h)); try lia; try reflexivity.
      exfalso. apply E. assert (Eq : len ls = i * 3 ^ N.of_nat h) by lia.
      rewrite Eq, N.div_mul by (pose proof (pow3_pos h); lia). reflexivity.
  - intros k Hk Hk8.
    rewrite kv_set_other by (intros E; symmetry in E; revert E; apply store_key_not_count).
    rewrite flush_get; [|apply HC|exact Hsm|exact Hk8].
    rewrite cache_get_none; [apply (inv_out _ _ HI k Hk Hk8)|].
    intros Hin. pose proof (c_small _ _ _ _ HC k Hin). lia.
  - rewrite kv_set_same. rewrite app_length; cbn [length]. f_equal. f_equal. lia.
Qed.

(** ** Opening *)
Lemma new_empty : exists t, tree_new S {| snaps := [] |} = Ok t /\ t_count t = 0 /\
  snaps (t_db t) = [t_view t] /\ Inv [] (t_view t).
Proof.
  unfold tree_new, db_view. cbn [snaps kv_empty].
  eexists. split; [reflexivity|]. cbn [t_count t_db t_view snaps].
  split; [reflexivity|]. split; [reflexivity|]. split.
  - apply N.le_0_l.
  - intros l h i Hlh Hi. cbn [length N.of_nat].
    rewrite kv_set_other by (intros E; symmetry in E; revert E; apply store_key_not_count).
    change ROOT_KEY with (store_key 0).
    replace (0 <=? i * 3 ^ N.of_nat h) with true by (symmetry; apply N.leb_le; lia).
    cbn [andb]. rewrite subtree_empty by apply N.le_0_l.
    destruct l as [|l]; cbn [Nat.eqb negb].
    + cbn in Hi. assert (i = 0) by lia. subst. unfold K; cbn [geom].
      change (0 + 0) with 0. apply kv_set_same.
    + rewrite kv_set_other; [reflexivity|]. intros E.
      apply store_key_inj in E; [|lia|apply K_small; [lia|exact Hi]].
      unfold K in E. rewrite geom_S in E. lia.
  - intros k Hk Hk8.
    rewrite kv_set_other by (intros E; symmetry in E; revert E; apply store_key_not_count).
    change ROOT_KEY with (store_key 0). rewrite kv_set_other; [reflexivity|].
    intros E. apply store_key_inj in E; [|lia|exact Hk8]. subst.
    assert (E : geom 21 = 5230176601) by reflexivity. lia.
  - apply kv_set_same.
Qed.

Lemma new_reopen d s ls : hd_error (snaps d) = Some s -> Inv ls s ->
  tree_new S d = Ok {| t_count := len ls; t_db := d; t_view := s |}.
Proof.
  intros Hs HI. unfold tree_new, db_view. destruct (snaps d) as [|s0 rest]; [discriminate|].
  injection Hs as ->. rewrite (inv_count _ _ HI). unfold parse_count.
  rewrite be_bytes_length. cbn [Nat.leb rmap].
  rewrite firstn_all2 by (rewrite be_bytes_length; lia).
  rewrite be_value_bytes by (apply be8_small, HI). reflexivity.
Qed.

(** ** Histories *)
Definition Rel (a : alog) (t : tree) : Prop :=
  t_count t = len (cur a) /\ Inv (cur a) (t_view t) /\
  Forall2 Inv (committed a) (snaps (t_db t)) /\ committed a <> [].

Lemma step_rel a t o : Rel a t -> len (cur (astep a o)) <= capacity ->
  exists t', step S t o = Ok t' /\ Rel (astep a o) t'.
Proof.
  intros (Hc & HI & Hf & Hne) Hcap. destruct o as [h| |]; cbn [step astep] in *.
  - cbn [cur] in Hcap. rewrite app_length in Hcap; cbn [length] in Hcap.
    destruct (add_inv t h (cur a) Hc HI) as (t' & Ha & Hc' & Hdb & HI').
    { unfold capacity in Hcap. lia. }
    rewrite Ha. cbn [rmap snd]. exists t'. split; [reflexivity|].
    unfold Rel; cbn [cur committed]. rewrite Hdb. auto.
  - eexists. split; [reflexivity|]. unfold Rel. cbn [cur committed commit snd t_count t_view t_db snaps].
    repeat split; try assumption; try apply HI; [|discriminate].
    constructor; assumption.
  - destruct (committed a) as [|ls rest]; [contradiction|].
    destruct (snaps (t_db t)) as [|s ss] eqn:Hsn; [inversion Hf|].
    assert (HIs : Inv ls s) by (inversion Hf; assumption).
    assert (Hh : hd_error (snaps (t_db t)) = Some s) by (rewrite Hsn; reflexivity).
    rewrite (new_reopen (t_db t) s ls Hh HIs).
    eexists. split; [reflexivity|]. unfold Rel; cbn [cur committed t_count t_view t_db hd].
    split; [reflexivity|]. split; [exact HIs|]. rewrite Hsn. split; [exact Hf|discriminate].
Qed.

Lemma run_rel os : forall a t, Rel a t -> within_capacity a os ->
  exists t', run S t os = Ok t' /\ Rel (fold_left astep os a) t'.
Proof.
  induction os as [|o os IH]; intros a t HR Hw; cbn [run fold_left].
  - exists t. split; [reflexivity|exact HR].
  - destruct Hw as [Hcap Hw]. destruct (step_rel a t o HR Hcap) as (t1 & -> & HR1).
    cbn [bind]. apply IH; assumption.
Qed.

Lemma run_new_rel os : within_capacity ainit os ->
  exists t, run_new S os = Ok t /\ Rel (arun os) t.
Proof.
  intros Hw. unfold run_new. destruct new_empty as (t0 & -> & Hc & Hdb & HI).
  cbn [bind]. apply run_rel; [|exact Hw].
  unfold Rel, ainit; cbn [cur committed]. rewrite Hdb.
  split; [exact Hc|]. split; [exact HI|]. split; [|discriminate].
  constructor; [exact HI|constructor].
Qed.

(** ** Roots *)
Lemma root_at_inv ls s depth : Inv ls s -> (depth <= 20)%nat -> ls <> [] \/ depth = 20%nat ->
  root_at S s depth = Ok (sub ls depth 0).
Proof.
  intros HI Hd Hne. unfold root_at, TREE_DEPTH.
  destruct (Nat.ltb_spec 20 depth); [lia|].
  replace (geom (20 - depth)) with (K (20 - depth) 0) by (unfold K; lia).
  rewrite (inv_node _ _ HI (20 - depth) depth 0) by (try lia; apply pow3_pos).
  rewrite N.mul_0_l.
  destruct Hne as [Hne|Hd20].
  - destruct (N.leb_spec (len ls) 0) as [E|E].
    + destruct ls; [contradiction|cbn in E; lia].
    + cbn [andb]. unfold dec_res. rewrite Hdec_enc. reflexivity.
  - subst. rewrite andb_false_r. unfold dec_res. rewrite Hdec_enc. reflexivity.
Qed.

(** ** Proof generation and verification *)
Definition path_nodes (ls : list A) := fix go (h : nat) (n : nat) (i : N) : list (proof_node S) :=
  match n with
  | O => []
  | Datatypes.S n' =>
    (match i mod 3 with
     | 0 => {| pn_sib1 := sub ls h (3 * (i / 3) + 1); pn_sib2 := sub ls h (3 * (i / 3) + 2); pn_path := PLeft |}
     | 1 => {| pn_sib1 := sub ls h (3 * (i / 3)); pn_sib2 := sub ls h (3 * (i / 3) + 2); pn_path := PMiddle |}
     | _ => {| pn_sib1 := sub ls h (3 * (i / 3)); pn_sib2 := sub ls h (3 * (i / 3) + 1); pn_path := PRight |}
     end) :: go (Datatypes.S h) n' (i / 3)
  end.

Lemma make_nodes ls s id : Inv ls s -> id < len ls -> forall n l h i,
  (n <= l)%nat -> (l + h = 20)%nat -> i = id / 3 ^ N.of_nat h -> i < 3 ^ N.of_nat l ->
  mapM (make_node S s s) (firstn n (spec_path l i)) = Ok (path_nodes ls h n i).
Proof.
  intros HI Hid. induction n as [|n IH]; intros l h i Hnl Hlh Hi Hil; [reflexivity|].
  destruct l as [|l]; [lia|]. cbn [spec_path firstn mapM path_nodes].
  assert (Hlen : i * 3 ^ N.of_nat h < len ls).
  { subst i. pose proof (mul_div_pow3 id h). lia. }
  assert (Hb : 3 * (i / 3) + 2 < 3 ^ N.of_nat (Datatypes.S l)).
  { pose proof (div3_lt _ _ Hil). rewrite pow3_S. lia. }
  unfold make_node at 1. rewrite (inv_exists _ _ _ _ _ HI Hlh Hil Hlen).
  rewrite two_siblings_K. unfold dir.
  rewrite (IH l (Datatypes.S h) (i / 3)); [|lia|lia|subst i; symmetry; apply div_pow3_S|apply div3_lt; exact Hil].
  destruct (mod3_cases i) as [E|[E|E]]; rewrite E;
    rewrite !(inv_read _ _ _ h _ HI Hlh) by lia; reflexivity.
Qed.

Lemma verify_path_nodes ls id : id < len ls -> forall n h i,
  i = id / 3 ^ N.of_nat h ->
  fold_left (verify_step S) (path_nodes ls h n i) (sub ls h i) =
  sub ls (h + n) (id / 3 ^ N.of_nat (h + n)).
Proof.
  intros Hid. induction n as [|n IH]; intros h i Hi; cbn [path_nodes fold_left].
  - rewrite Nat.add_0_r, <- Hi. reflexivity.
  - assert (Hstep : forall nd, nd = match i mod 3 with
     | 0 => {| pn_sib1 := sub ls h (3 * (i / 3) + 1); pn_sib2 := sub ls h (3 * (i / 3) + 2); pn_path := PLeft |}
     | 1 => {| pn_sib1 := sub ls h (3 * (i / 3)); pn_sib2 := sub ls h (3 * (i / 3) + 2); pn_path := PMiddle |}
     | _ => {| pn_sib1 := sub ls h (3 * (i / 3)); pn_sib2 := sub ls h (3 * (i / 3) + 1); pn_path := PRight |}
     end -> verify_step S (sub ls h i) nd = sub ls (Datatypes.S h) (i / 3)).
    { intros nd ->. rewrite subtree_node.
      2:{ subst i. rewrite <- div_pow3_S. pose proof (mul_div_pow3 id (Datatypes.S h)). lia. }
      destruct (mod3_cases i) as [E|[E|E]]; rewrite E; unfold verify_step;
        cbn [pn_path pn_sib1 pn_sib2].
      - replace (3 * (i / 3)) with i at 3 by lia. reflexivity.
      - replace (3 * (i / 3) + 1) with i by lia. reflexivity.
      - replace (3 * (i / 3) + 2) with i by lia. reflexivity. }
    rewrite (Hstep _ eq_refl). rewrite IH by (subst i; symmetry; apply div_pow3_S).
    rewrite <- Nat.add_succ_comm. reflexivity.
Qed.

Lemma generate_proof_spec a t id depth : Rel a t -> (depth <= 20)%nat ->
  id < len (cur a) -> id < 3 ^ N.of_nat depth ->
  exists p, generate_proof_with_depth S t id depth = Ok p /\
    length (pf_nodes _ p) = depth /\ pf_uid _ p = id /\ pf_version _ p = version t /\
    get_root_with_depth S t depth = Ok (pf_root _ p) /\
    pf_root _ p = sub (cur a) depth 0 /\
    pf_nodes _ p = path_nodes (cur a) 0 depth id /\
    fold_left (verify_step S) (pf_nodes _ p) (nth (N.to_nat id) (cur a) (Hz S)) = pf_root _ p.
Proof.
  intros (Hc & HI & _ & _) Hd Hid Hdep. unfold generate_proof_with_depth, TREE_DEPTH.
  destruct (Nat.ltb_spec 20 depth); [lia|]. destruct (N.ltb_spec (3 ^ N.of_nat depth) id); [lia|].
  cbn [orb]. assert (Hid20 : id < 3 ^ N.of_nat 20).
  { pose proof (inv_cap _ _ HI). change (3 ^ N.of_nat 20) with (3 ^ 20). lia. }
  rewrite get_path_keys_spec by exact Hid20.
  rewrite (make_nodes (cur a) (t_view t) id HI Hid depth 20 0 id); [|lia|reflexivity| |exact Hid20].
  2:{ change (3 ^ N.of_nat 0) with 1. rewrite N.div_1_r. reflexivity. }
  assert (Hr : get_root_with_depth S t depth = Ok (sub (cur a) depth 0)).
  { apply root_at_inv; [exact HI|exact Hd|]. left. intros E. rewrite E in Hid. cbn in Hid. lia. }
  cbn [bind]. rewrite Hr. cbn [bind]. eexists. split; [reflexivity|].
  cbn [pf_nodes pf_uid pf_version pf_root].
  assert (Hlen : forall n h i, length (path_nodes (cur a) h n i) = n).
  { induction n as [|n IH]; intros h i; cbn [path_nodes length]; [reflexivity|]. rewrite IH; reflexivity. }
  rewrite Hlen. repeat (split; [reflexivity|]).
  rewrite <- (subtree_leaf _ _ Hid).
  rewrite (verify_path_nodes (cur a) id Hid depth 0 id); [|change (3 ^ N.of_nat 0) with 1; rewrite N.div_1_r; reflexivity].
  cbn [Nat.add]. rewrite N.div_small by exact Hdep. reflexivity.
Qed.

End P.

Lemma spec_root_eq {A} (z : A) H ls : spec_root z H ls = subtree z H ls 20 0.
Proof. reflexivity. Qed.
Opaque subtree.

(** ** Binding *)
Definition digit (p : tree_path) : N := match p with PLeft => 0 | PMiddle => 1 | PRight => 2 end.
Definition node_view {S} (n : proof_node S) : elem (A := HA S) :=
  (digit (pn_path _ n), pn_sib1 _ n, pn_sib2 _ n).

Lemma verify_step_view S (x : HA S) n :
  verify_step S x n = hash3 (H3 S) (triple_of x (node_view n)).
Proof. unfold verify_step, triple_of, node_view, digit_of. destruct (pn_path S n); reflexivity. Qed.

Lemma fold_verify_climb S nodes (x : HA S) :
  fold_left (verify_step S) nodes x = climb (H3 S) x (map node_view nodes).
Proof.
  revert x; induction nodes as [|n nodes IH]; intros x; cbn [fold_left map climb]; [reflexivity|].
  rewrite verify_step_view. apply IH.
Qed.

Lemma climb_app {A} (H : A -> A -> A -> A) x p q : climb H x (p ++ q) = climb H (climb H x p) q.
Proof. revert x; induction p as [|e p IH]; intros x; cbn; [reflexivity|]. apply IH. Qed.

Lemma position_div digits h :
  Forall (fun d => d < 3) digits -> position digits / 3 ^ N.of_nat h = position (skipn h digits).
Proof.
  revert digits; induction h as [|h IH]; intros digits Hd.
  - change (3 ^ N.of_nat 0) with 1. rewrite N.div_1_r. reflexivity.
  - destruct digits as [|d ds]; cbn [skipn position].
    + apply N.div_0_l. pose proof (pow3_pos (S h)); lia.
    + inversion Hd as [|? ? Hd0 Hds]; subst. rewrite <- IH by exact Hds.
      rewrite pow3_S. rewrite <- N.div_div by (pose proof (pow3_pos h); lia).
      f_equal. lia.
Qed.

Lemma position_bound digits : Forall (fun d => d < 3) digits ->
  position digits < 3 ^ N.of_nat (length digits).
Proof.
  induction 1 as [|d ds Hd _ IH]; cbn [position length]; [reflexivity|]. rewrite pow3_S. lia.
Qed.

Lemma nth_error_skipn {A} (l : list A) h x : nth_error l h = Some x -> skipn h l = x :: skipn (S h) l.
Proof.
  revert l; induction h as [|h IH]; intros [|y l]; cbn; try discriminate.
  - intros E; injection E as ->. reflexivity.
  - intros E. rewrite (IH l E). reflexivity.
Qed.

Lemma firstn_S {A} (l : list A) h x : nth_error l h = Some x -> firstn (S h) l = firstn h l ++ [x].
Proof.
  revert l; induction h as [|h IH]; intros [|y l]; cbn; try discriminate.
  - intros E; injection E as ->. reflexivity.
  - intros E. f_equal. apply IH, E.
Qed.

Section Binding.
Context (S : hashsys).
Notation A := (HA S).
Notation sub := (subtree (Hz S) (H3 S)).
Notation len l := (N.of_nat (length l)).

Lemma triple_dec (t u : A * A * A) : {t = u} + {t <> u}.
Proof.
  destruct t as [[a b] c], u as [[a' b'] c'].
  destruct (Heqb_spec S a a') as [->|N1]; [|right; congruence].
  destruct (Heqb_spec S b b') as [->|N2]; [|right; congruence].
  destruct (Heqb_spec S c c') as [->|N3]; [left; reflexivity|right; congruence].
Qed.

Lemma binding_down ls leaf (path : list (elem (A := A))) :
  Forall (fun d => d < 3) (map digit_of path) ->
  forall h, (h <= length path)%nat ->
  climb (H3 S) leaf (firstn h path) = sub ls h (position (map digit_of path) / 3 ^ N.of_nat h) ->
  leaf = sub ls 0 (position (map digit_of path)) \/
  exists h', (h' < h)%nat /\ broken_at (Hz S) (H3 S) ls leaf path h'.
Proof.
  intros Hdig. induction h as [|h IH]; intros Hh Hc.
  - left. change (3 ^ N.of_nat 0) with 1 in Hc. rewrite N.div_1_r in Hc. exact Hc.
  - destruct (nth_error path h) as [e|] eqn:He.
    2:{ apply nth_error_None in He. lia. }
    rewrite (firstn_S _ _ _ He), climb_app in Hc. cbn [climb] in Hc.
    set (x := climb (H3 S) leaf (firstn h path)) in *.
    set (i := position (map digit_of path)) in *.
    set (j := i / 3 ^ N.of_nat (Datatypes.S h)) in *.
    assert (Hpt : path_triple (H3 S) leaf path h = Some (triple_of x e)).
    { unfold path_triple. rewrite He. reflexivity. }
    destruct (N.le_gt_cases (len ls) (j * 3 ^ N.of_nat (Datatypes.S h))) as [Hemp|Hne].
    + right. exists h. split; [lia|]. exists (triple_of x e). split; [exact Hpt|].
      right. split; [exact Hemp|]. rewrite Hc. apply subtree_empty. exact Hemp.
    + rewrite (subtree_node S ls h j Hne) in Hc.
      destruct (triple_dec (triple_of x e) (tree_triple (Hz S) (H3 S) ls h j)) as [E|E].
      * assert (Hdj : i / 3 ^ N.of_nat h = digit_of e + 3 * j).
        { unfold j, i. rewrite !position_div by exact Hdig.
          rewrite (nth_error_skipn (map digit_of path) h (digit_of e)).
          - reflexivity.
          - rewrite nth_error_map, He. reflexivity. }
        assert (Hde : digit_of e < 3).
        { rewrite Forall_forall in Hdig. apply Hdig. apply in_map. eapply nth_error_In, He. }
        assert (Hx : x = sub ls h (i / 3 ^ N.of_nat h)).
        { rewrite Hdj. unfold triple_of, place, tree_triple in E.
          assert (Hcases : digit_of e = 0 \/ digit_of e = 1 \/ digit_of e = 2) by lia.
          destruct Hcases as [Ed|[Ed|Ed]]; rewrite Ed in *; injection E as E1 E2 E3.
          - replace (0 + 3 * j) with (3 * j) by lia. exact E1.
          - replace (1 + 3 * j) with (3 * j + 1) by lia. exact E2.
          - replace (2 + 3 * j) with (3 * j + 2) by lia. exact E3. }
        destruct (IH ltac:(lia) Hx) as [HL|(h' & Hh' & HB)]; [left; exact HL|].
        right. exists h'. split; [lia|exact HB].
      * right. exists h. split; [lia|]. exists (triple_of x e). split; [exact Hpt|].
        left. split; [exact Hne|]. split; [exact E|exact Hc].
Qed.

Lemma binding ls leaf (p : proof S) :
  length (pf_nodes _ p) = 20%nat -> pf_root _ p = spec_root (Hz S) (H3 S) ls ->
  verify S leaf p = true ->
  let path := map node_view (pf_nodes _ p) in
  let i := position (map digit_of path) in
  (i < len ls /\ nth_error ls (N.to_nat i) = Some leaf) \/
  (len ls <= i /\ leaf = Hz S) \/
  exists h, (h < 20)%nat /\ broken_at (Hz S) (H3 S) ls leaf path h.
Proof.
  intros Hlen Hroot Hv path i. unfold verify in Hv.
  destruct (Heqb_spec S (fold_left (verify_step S) (pf_nodes S p) leaf) (pf_root S p)) as [E|]; [|discriminate].
  rewrite fold_verify_climb, Hroot in E. rewrite spec_root_eq in E. fold path in E.
  assert (Hdig : Forall (fun d => d < 3) (map digit_of path)).
  { unfold path. rewrite map_map. apply Forall_forall. intros d Hd.
    apply in_map_iff in Hd as (n & <- & _). unfold node_view, digit_of; cbn.
    destruct (pn_path S n); cbn; lia. }
  assert (Hpl : length path = 20%nat) by (unfold path; rewrite map_length; exact Hlen).
  assert (Hi : i / 3 ^ N.of_nat 20 = 0).
  { apply N.div_small. unfold i. pose proof (position_bound _ Hdig) as Hb.
    rewrite map_length, Hpl in Hb. exact Hb. }
  destruct (binding_down ls leaf path Hdig 20) as [HL|HB].
  - lia.
  - rewrite firstn_all2 by lia. fold i. rewrite Hi. exact E.
  - fold i in HL. destruct (N.lt_ge_cases i (len ls)) as [Hlt|Hge].
    + left. split; [exact Hlt|]. rewrite subtree_leaf in HL by exact Hlt.
      rewrite HL. apply nth_error_nth'. lia.
    + right; left. split; [exact Hge|]. rewrite HL. apply subtree_empty.
      change (3 ^ N.of_nat 0) with 1. lia.
  - right; right. exact HB.
Qed.
End Binding.

(** ** Property-level lemmas *)
Section Top.
Context (S : hashsys).
Notation A := (HA S).
Notation sub := (subtree (Hz S) (H3 S)).
Notation len l := (N.of_nat (length l)).

Lemma membership_lemma os : within_capacity ainit os ->
  exists t, run_new S os = Ok t /\
  forall id leaf, nth_error (cur (arun os)) (N.to_nat id) = Some leaf ->
  exists p, generate_proof S t id = Ok p /\ verify S leaf p = true /\
            get_root S t = Ok (pf_root _ p) /\ pf_uid _ p = id /\
            position (map (fun n => digit (pn_path _ n)) (pf_nodes _ p)) = id.
Proof.
  intros Hw. destruct (run_new_rel S os Hw) as (t & Ht & HR). exists t. split; [exact Ht|].
  intros id leaf Hl.
  assert (Hid : id < len (cur (arun os))).
  { assert (N.to_nat id < length (cur (arun os)))%nat; [|lia].
    apply nth_error_Some. congruence. }
  assert (Hid20 : id < 3 ^ N.of_nat 20).
  { destruct HR as (_ & HI & _). pose proof (inv_cap _ _ _ HI).
    change (3 ^ N.of_nat 20) with (3 ^ 20). lia. }
  destruct (generate_proof_spec S (arun os) t id 20 HR ltac:(lia) Hid Hid20)
    as (p & Hp & Hln & Hu & Hv & Hr & Hr' & Hnodes & Hf).
  exists p. split; [exact Hp|]. split.
  { unfold verify. rewrite (nth_error_nth _ _ (Hz S) Hl) in Hf. rewrite Hf.
    destruct (Heqb_spec S (pf_root S p) (pf_root S p)); congruence. }
  split; [exact Hr|]. split; [exact Hu|].
  rewrite Hnodes. clear - Hid20. revert Hid20. generalize 20%nat as n. generalize 0%nat as h.
  intros h n; revert id h; induction n as [|n IH]; intros i h Hi; cbn [path_nodes map position].
  - change (3 ^ N.of_nat 0) with 1 in Hi. clear - Hi. lia.
  - rewrite (IH (i / 3) (Datatypes.S h)) by (apply div3_lt; exact Hi).
    destruct (mod3_cases i) as [E|[E|E]]; rewrite E; cbn [digit pn_path]; lia.
Qed.

Lemma root_lemma os : within_capacity ainit os ->
  exists t, run_new S os = Ok t /\ get_root S t = Ok (spec_root (Hz S) (H3 S) (cur (arun os))) /\
            t_count t = len (cur (arun os)).
Proof.
  intros Hw. destruct (run_new_rel S os Hw) as (t & Ht & HR). exists t. split; [exact Ht|].
  destruct HR as (Hc & HI & _). split; [|exact Hc].
  apply root_at_inv; [exact HI|lia|right; reflexivity].
Qed.

Lemma run_app os1 os2 t : run S t (os1 ++ os2) = bind (run S t os1) (fun t' => run S t' os2).
Proof.
  revert t; induction os1 as [|o os1 IH]; intros t; cbn [app run bind]; [reflexivity|].
  destruct (step S t o) as [t1| |]; cbn [bind]; [apply IH|reflexivity|reflexivity].
Qed.

Lemma adds_keep_db xs t t' : run S t (map AAdd xs) = Ok t' -> t_db t' = t_db t.
Proof.
  revert t; induction xs as [|x xs IH]; intros t; cbn [map run].
  - intros E; injection E as ->. reflexivity.
  - cbn [step]. unfold add_commitment_hash. intros E.
    destruct (get_path_keys (t_count t)) as [|l ks]; [discriminate|].
    destruct (add_loop _ _ _ _ _) as [c| |]; try discriminate.
    cbn [bind rmap snd] in E. apply IH in E. exact E.
Qed.

Lemma within_app (a : alog (A := A)) os1 os2 : within_capacity a (os1 ++ os2) <->
  within_capacity a os1 /\ within_capacity (fold_left astep os1 a) os2.
Proof.
  revert a; induction os1 as [|o os1 IH]; intros a; cbn [app within_capacity fold_left]; [tauto|].
  rewrite IH. tauto.
Qed.

Lemma crash_lemma os xs :
  within_capacity ainit (os ++ ACommit :: map AAdd xs) ->
  run_new S (os ++ ACommit :: map AAdd xs ++ [ACrash]) = run_new S (os ++ [ACommit]).
Proof.
  intros Hw. unfold run_new. destruct (new_empty S) as (t0 & Ht0 & Hc & Hdb & HI0).
  rewrite Ht0. cbn [bind].
  assert (HR0 : Rel S ainit t0).
  { unfold Rel, ainit; cbn [cur committed]. rewrite Hdb.
    split; [exact Hc|]. split; [exact HI0|]. split; [|discriminate].
    constructor; [exact HI0|constructor]. }
  apply within_app in Hw as [Hw1 Hw2].
  destruct (run_rel S os ainit t0 HR0 Hw1) as (t1 & Ht1 & HR1).
  rewrite !run_app, Ht1. cbn [bind run step]. 
  set (t2 := snd (commit t1 true)).
  assert (HR2 : Rel S (astep (fold_left astep os ainit) ACommit) t2).
  { destruct (step_rel S _ t1 ACommit HR1) as (t2' & E & HR2); [apply Hw2|].
    cbn [step] in E. injection E as <-. exact HR2. }
  destruct Hw2 as [_ Hw2].
  destruct (run_rel S (map AAdd xs) _ t2 HR2 Hw2) as (t3 & Ht3 & HR3).
  rewrite run_app, Ht3. cbn [bind run step].
  rewrite (adds_keep_db xs t2 t3 Ht3).
  destruct HR2 as (Hc2 & HI2 & Hf2 & _).
  assert (Hh : hd_error (snaps (t_db t2)) = Some (t_view t2)) by reflexivity.
  rewrite (new_reopen S (t_db t2) (t_view t2) _ Hh HI2). cbn [bind].
  rewrite <- Hc2. reflexivity.
Qed.

Lemma Forall2_nth_rev {X Y} (R : X -> Y -> Prop) l l' n x :
  Forall2 R l l' -> nth_error (rev l) n = Some x -> exists y, nth_error (rev l') n = Some y /\ R x y.
Proof.
  intros HF. assert (HR : Forall2 R (rev l) (rev l')).
  { induction HF as [|a b l l' Hab _ IH]; cbn; [constructor|].
    apply Forall2_app; [exact IH|]. constructor; [exact Hab|constructor]. }
  revert n; induction HR as [|a b m m' Hab _ IH]; intros [|n]; cbn; try discriminate.
  - intros E; injection E as <-. eauto.
  - apply IH.
Qed.

Lemma committed_bottom os (a : alog (A := A)) : committed a <> [] -> last (committed (fold_left astep os a)) [] = last (committed a) [] /\ committed (fold_left astep os a) <> [].
Proof.
  revert a; induction os as [|o os IH]; intros a Ha; cbn [fold_left]; [tauto|].
  assert (Hb : committed (astep a o) <> [] /\ last (committed (astep a o)) [] = last (committed a) []).
  { destruct o; cbn; [tauto| |tauto]. split; [discriminate|]. destruct (committed a); [contradiction|reflexivity]. }
  destruct Hb as [Hb1 Hb2]. destruct (IH _ Hb1) as [H1 H2]. rewrite H1, Hb2. tauto.
Qed.

Lemma version_root_lemma os : within_capacity ainit os ->
  exists t, run_new S os = Ok t /\
  forall v ls, nth_error (rev (committed (arun os))) (N.to_nat v) = Some ls ->
  get_root_with_depth_and_version S t 20 v = Ok (spec_root (Hz S) (H3 S) ls).
Proof.
  intros Hw. destruct (run_new_rel S os Hw) as (t & Ht & HR). exists t. split; [exact Ht|].
  destruct HR as (_ & _ & Hf & Hne). intros v ls Hv. unfold get_root_with_depth_and_version.
  destruct (N.eqb_spec v 0) as [->|Hv0].
  - cbn [N.to_nat] in Hv.
    destruct (committed_bottom os ainit ltac:(discriminate)) as [Hb _].
    fold (arun os) in Hb. cbn in Hb.
    assert (ls = []) as ->.
    { rewrite <- Hb. destruct (committed (arun os)) as [|c cs] using rev_ind; [discriminate|].
      rewrite rev_app_distr in Hv. cbn in Hv. rewrite last_last. congruence. }
    rewrite spec_root_eq, subtree_empty by apply N.le_0_l. reflexivity.
  - destruct (Forall2_nth_rev _ _ _ _ _ Hf Hv) as (s & Hs & HI).
    unfold db_at. rewrite Hs. rewrite ?spec_root_eq. apply root_at_inv; [exact HI|lia|right; reflexivity].
Qed.

Lemma committed_grow os : forall a : alog (A := A), exists newer,
  committed (fold_left astep os a) = newer ++ committed a.
Proof.
  induction os as [|o os IH]; intros a; cbn [fold_left]; [exists []; reflexivity|].
  destruct (IH (astep a o)) as [n E]. rewrite E. destruct o; cbn; eauto.
  exists (n ++ [cur a]). rewrite <- app_assoc. reflexivity.
Qed.

Lemma version_stable_lemma os os' v ls :
  within_capacity ainit (os ++ os') ->
  nth_error (rev (committed (arun os))) (N.to_nat v) = Some ls ->
  exists t t', run_new S os = Ok t /\ run_new S (os ++ os') = Ok t' /\
    get_root_with_depth_and_version S t' 20 v = get_root_with_depth_and_version S t 20 v /\
    get_root_with_depth_and_version S t 20 v = Ok (spec_root (Hz S) (H3 S) ls).
Proof.
  intros Hw Hv. pose proof (proj1 (proj1 (within_app _ _ _) Hw)) as Hw1.
  destruct (version_root_lemma os Hw1) as (t & Ht & Hr).
  destruct (version_root_lemma (os ++ os') Hw) as (t' & Ht' & Hr').
  exists t, t'. split; [exact Ht|]. split; [exact Ht'|].
  rewrite (Hr v ls Hv). split; [|reflexivity]. apply Hr'.
  unfold arun. rewrite fold_left_app. destruct (committed_grow os' (fold_left astep os ainit)) as [n E].
  rewrite E, rev_app_distr. rewrite nth_error_app1; [exact Hv|].
  apply nth_error_Some. fold (arun os). congruence.
Qed.

(** The immutable tree over the last commit. *)
Lemma db_at_height d s rest : snaps d = s :: rest -> db_at d (db_height d) = Some s.
Proof.
  intros E. unfold db_at, db_height. rewrite E. cbn [rev]. rewrite Nat2N.id.
  rewrite nth_error_app2 by (rewrite rev_length; lia). rewrite rev_length, Nat.sub_diag. reflexivity.
Qed.

Lemma immutable_lemma os : within_capacity ainit os ->
  exists t it, run_new S os = Ok t /\ itree_new (t_db t) = Ok it /\
  let ls := hd [] (committed (arun os)) in
  it_count it = len ls /\
  it_get_root_with_depth S it 20 = Ok (spec_root (Hz S) (H3 S) ls) /\
  forall id leaf, nth_error ls (N.to_nat id) = Some leaf ->
  exists p, it_generate_proof_with_depth S it id 20 = Ok p /\ verify S leaf p = true /\
            pf_uid _ p = id /\ pf_version _ p = it_version it.
Proof.
  intros Hw. destruct (run_new_rel S os Hw) as (t & Ht & HR). exists t.
  pose proof (committed_bottom os ainit ltac:(discriminate)) as [Hbot _].
  fold (arun os) in Hbot. cbn [ainit committed last] in Hbot.
  destruct HR as (_ & _ & Hf & Hne).
  destruct (committed (arun os)) as [|ls rest]; [contradiction|]. cbn [hd].
  destruct (snaps (t_db t)) as [|s ss] eqn:Hsn; [inversion Hf|].
  assert (HIs : Inv S ls s) by (inversion Hf; assumption).
  assert (Hss : Forall2 (Inv S) rest ss) by (inversion Hf; assumption).
  unfold itree_new, db_view. rewrite Hsn, (inv_count _ _ _ HIs). unfold parse_count.
  rewrite be_bytes_length. cbn [Nat.leb rmap].
  rewrite firstn_all2 by (rewrite be_bytes_length; lia).
  rewrite be_value_bytes by (apply (be8_small (len ls)), HIs).
  eexists. split; [exact Ht|]. split; [reflexivity|]. cbn [it_count].
  split; [reflexivity|].
  assert (Hroot : it_get_root_with_depth S {| it_count := len ls; it_db := t_db t |} 20 =
                  Ok (spec_root (Hz S) (H3 S) ls)).
  { unfold it_get_root_with_depth, it_get_root_with_depth_and_version, it_version. cbn [it_db].
    destruct (N.eqb_spec (db_height (t_db t)) 0) as [E|E].
    - unfold db_height in E. rewrite Hsn in E. destruct ss as [|s' ss']; [|cbn in E; lia].
      inversion Hss; subst. cbn in Hbot. subst ls. rewrite spec_root_eq, subtree_empty by apply N.le_0_l. reflexivity.
    - rewrite (db_at_height _ _ _ Hsn). rewrite ?spec_root_eq. apply root_at_inv; [exact HIs|lia|right; reflexivity]. }
  split; [exact Hroot|]. intros id leaf Hl.
  assert (Hid : id < len ls).
  { assert (N.to_nat id < length ls)%nat; [|lia]. apply nth_error_Some. congruence. }
  assert (Hid20 : id < 3 ^ N.of_nat 20).
  { pose proof (inv_cap _ _ _ HIs). change (3 ^ N.of_nat 20) with (3 ^ 20). lia. }
  unfold it_generate_proof_with_depth, TREE_DEPTH. cbn [Nat.ltb Nat.leb orb].
  destruct (N.ltb_spec (3 ^ N.of_nat 20) id) as [E|E]; [lia|].
  unfold it_version, db_view. cbn [it_db]. rewrite (db_at_height _ _ _ Hsn), Hsn.
  rewrite get_path_keys_spec by exact Hid20.
  rewrite (make_nodes S ls s id HIs Hid 20 20 0 id); [|lia|reflexivity| |exact Hid20].
  2:{ change (3 ^ N.of_nat 0) with 1. rewrite N.div_1_r. reflexivity. }
  cbn [bind]. rewrite Hroot. cbn [bind]. eexists. split; [reflexivity|].
  cbn [pf_uid pf_version]. split; [|split; reflexivity].
  unfold verify. cbn [pf_nodes pf_root].
  rewrite <- (nth_error_nth _ _ (Hz S) Hl). rewrite <- (subtree_leaf S _ _ Hid).
  rewrite (verify_path_nodes S ls id Hid 20 0 id);
    [|change (3 ^ N.of_nat 0) with 1; rewrite N.div_1_r; reflexivity].
  cbn [Nat.add]. rewrite N.div_small by exact Hid20. rewrite ?spec_root_eq.
  destruct (Heqb_spec S (sub ls 20 0) (sub ls 20 0)); congruence.
Qed.

(** Reduced depth on the mutable tree. *)
Lemma depth_lemma os depth : within_capacity ainit os -> (depth <= 20)%nat ->
  exists t, run_new S os = Ok t /\
  (forall id leaf, id < 3 ^ N.of_nat depth -> nth_error (cur (arun os)) (N.to_nat id) = Some leaf ->
    exists p, generate_proof_with_depth S t id depth = Ok p /\ length (pf_nodes _ p) = depth /\
      verify S leaf p = true /\ get_root_with_depth S t depth = Ok (pf_root _ p) /\
      pf_root _ p = sub (cur (arun os)) depth 0) /\
  (forall id, 3 ^ N.of_nat depth < id -> generate_proof_with_depth S t id depth = Err).
Proof.
  intros Hw Hd. destruct (run_new_rel S os Hw) as (t & Ht & HR). exists t. split; [exact Ht|]. split.
  - intros id leaf Hdep Hl.
    assert (Hid : id < len (cur (arun os))).
    { assert (N.to_nat id < length (cur (arun os)))%nat; [|lia]. apply nth_error_Some. congruence. }
    destruct (generate_proof_spec S (arun os) t id depth HR Hd Hid Hdep)
      as (p & Hp & Hln & Hu & Hv & Hr & Hr' & Hnodes & Hf).
    exists p. split; [exact Hp|]. split; [exact Hln|]. split; [|split; assumption].
    unfold verify. rewrite (nth_error_nth _ _ (Hz S) Hl) in Hf. rewrite Hf.
    destruct (Heqb_spec S (pf_root S p) (pf_root S p)); congruence.
  - intros id Hid. unfold generate_proof_with_depth.
    destruct (N.ltb_spec (3 ^ N.of_nat depth) id); [|lia]. rewrite orb_true_r. reflexivity.
Qed.

(** Absent ids are refused. *)
Lemma absent_lemma os : within_capacity ainit os ->
  exists t, run_new S os = Ok t /\
  forall id, len (cur (arun os)) <= id -> generate_proof S t id = Err.
Proof.
  intros Hw. destruct (run_new_rel S os Hw) as (t & Ht & HR). exists t. split; [exact Ht|].
  destruct HR as (_ & HI & _). intros id Hid. unfold generate_proof, generate_proof_with_depth, TREE_DEPTH.
  cbn [Nat.ltb Nat.leb orb]. destruct (N.ltb_spec (3 ^ N.of_nat 20) id) as [E|E]; [reflexivity|].
  change (3 ^ N.of_nat 20) with (3 ^ 20) in E.
  assert (Hfst : exists p rest, firstn 20 (get_path_keys id) = (LEAF_START + id, p) :: rest).
  { unfold get_path_keys, TREE_DEPTH. set (k0 := LEAF_START + id). clearbody k0.
    change (path_loop 21 k0) with (let '(e, key') := path_step k0 in e :: path_loop 20 key').
    pose proof (path_step_fst k0) as Hf. destruct (path_step k0) as [[k p] k'].
    cbn [fst] in Hf. subst k. cbn [firstn]. eauto. }
  destruct Hfst as (p & rest & ->). cbn [mapM]. unfold make_node at 1.
  assert (Hnone : t_view t (store_key (LEAF_START + id)) = None).
  { rewrite <- geom_20. change (geom 20 + id) with (K 20 id).
    destruct (N.eq_dec id (3 ^ 20)) as [->|Hn].
    - apply (inv_out _ _ _ HI).
      + unfold K. rewrite geom_next. change (N.of_nat 20) with 20. lia.
      + assert (E1 : K 20 (3 ^ 20) = 5230176601) by reflexivity. rewrite E1. reflexivity.
    - rewrite (inv_node _ _ _ HI 20 0 id) by (try reflexivity; change (3 ^ N.of_nat 20) with (3 ^ 20); lia).
      change (3 ^ N.of_nat 0) with 1. destruct (N.leb_spec (len (cur (arun os))) (id * 1)); [reflexivity|lia]. }
  rewrite Hnone. reflexivity.
Qed.

(** What get_leaf really returns. *)
Lemma get_leaf_lemma os : within_capacity ainit os ->
  exists t, run_new S os = Ok t /\
  (forall id leaf, nth_error (cur (arun os)) (N.to_nat id) = Some leaf ->
     get_leaf S t (1743392200 + id) = Ok (Some leaf)) /\
  get_leaf S t 0 = Ok (Some (spec_root (Hz S) (H3 S) (cur (arun os)))).
Proof.
  intros Hw. destruct (run_new_rel S os Hw) as (t & Ht & HR). exists t. split; [exact Ht|].
  destruct HR as (_ & HI & _). split.
  - intros id leaf Hl.
    assert (Hid : id < len (cur (arun os))).
    { assert (N.to_nat id < length (cur (arun os)))%nat; [|lia]. apply nth_error_Some. congruence. }
    unfold get_leaf. change 1743392200 with (geom 20). change (geom 20 + id) with (K 20 id).
    rewrite (inv_exists S _ _ 20 0 id HI eq_refl).
    + unfold dec_res. rewrite Hdec_enc. rewrite subtree_leaf by exact Hid.
      cbn [rmap]. rewrite (nth_error_nth _ _ (Hz S) Hl). reflexivity.
    + pose proof (inv_cap _ _ _ HI). change (3 ^ N.of_nat 20) with (3 ^ 20). lia.
    + change (3 ^ N.of_nat 0) with 1. lia.
  - unfold get_leaf. change (store_key 0) with (store_key (K 0 0)).
    rewrite (inv_node _ _ _ HI 0 20 0) by reflexivity.
    rewrite andb_false_r. unfold dec_res. rewrite Hdec_enc. reflexivity.
Qed.

End Top.
