(** Behaviour of the Merkle tree model outside its guarantees. *)
From Coq Require Import List ZArith NArith Bool Lia ZifyBool ZifyNat ZifyN.
From Verif Require Import Base MerkleModel MerkleSpec MerkleProofs.
Import ListNotations.
Local Open Scope N_scope.
Ltac Zify.zify_post_hook ::= Z.div_mod_to_equations.

(** ** A concrete hash environment for witnesses: numbers with a toy hash. *)
Definition toy_dec (b : list N) : option N := match b with [x] => Some x | _ => None end.
Lemma toy_dec_enc (a : N) : toy_dec [a] = Some a.
Proof. reflexivity. Qed.
Definition toy : hashsys :=
  {| HA := N; Hz := 0; Heqb := N.eqb; Heqb_spec := N.eqb_spec;
     Henc := fun a => [a]; Hdec := toy_dec; Hdec_enc := toy_dec_enc;
     H3 := fun a b c => a + b + c + 1 |}.

(** A second one whose hash depends on the order of its arguments. *)
Definition toy2 : hashsys :=
  {| HA := N; Hz := 0; Heqb := N.eqb; Heqb_spec := N.eqb_spec;
     Henc := fun a => [a]; Hdec := toy_dec; Hdec_enc := toy_dec_enc;
     H3 := fun a b c => (a + 3 * b + 5 * c + 7) mod 1000003 |}.

(** ** Insertion into a full tree *)
Section Full.
Context (S : hashsys).
Notation A := (HA S).
Notation sub := (subtree (Hz S) (H3 S)).
Notation len l := (N.of_nat (length l)).

Lemma add_loop_cons s n k p par q rest c :
  add_loop S s (Datatypes.S n) ((k, p) :: (par, q) :: rest) c =
    (let '(k0, k1, k2) := three_siblings k p in
      bind (parse_hash S s c k0) (fun s0 =>
      bind (parse_hash S s c k1) (fun s1 =>
      bind (parse_hash S s c k2) (fun s2 =>
      add_loop S s n ((par, q) :: rest) (cache_set c par (Henc S (H3 S s0 s1 s2))))))).
Proof. reflexivity. Qed.

Lemma path_step_0 l : path_step (K (Datatypes.S l) 0) = ((K (Datatypes.S l) 0, PLeft), K l 0).
Proof. rewrite path_step_K. reflexivity. Qed.

Lemma path_loop_0 n l : path_loop (Datatypes.S n) (K (Datatypes.S l) 0) =
  (K (Datatypes.S l) 0, PLeft) :: path_loop n (K l 0).
Proof.
  change (path_loop (Datatypes.S n) (K (Datatypes.S l) 0)) with
    (let '(e, key') := path_step (K (Datatypes.S l) 0) in e :: path_loop n key').
  rewrite path_step_0. reflexivity.
Qed.

Definition zkey (k : N) (lo : nat) : Prop := exists l, (lo <= l <= 21)%nat /\ k = K l 0.

Lemma K0_inj l l' : K l 0 = K l' 0 -> l = l'.
Proof. intros E. apply K_inj in E; [apply E|apply pow3_pos|apply pow3_pos]. Qed.

Lemma full_loop ls s : Inv S ls s -> forall n c,
  (Datatypes.S n <= 20)%nat -> NoDup (map fst c) ->
  (forall k, In k (map fst c) -> zkey k (Datatypes.S n)) ->
  (exists a, cache_get c (K (Datatypes.S n) 0) = Some (Henc S a)) ->
  exists c', add_loop S s n (path_loop (Datatypes.S n) (K (Datatypes.S n) 0)) c = Ok c' /\
    NoDup (map fst c') /\ (forall k, In k (map fst c') -> zkey k 1) /\
    (forall l, (Datatypes.S n <= l)%nat -> cache_get c' (K l 0) = cache_get c (K l 0)).
Proof.
  intros HI. induction n as [|n IH]; intros c Hn Hd Hk [a Ha].
  - exists c. repeat split; auto.
  - rewrite path_loop_0, path_loop_0. cbn [add_loop].
    replace PLeft with (dir 0) at 1 by reflexivity. rewrite three_siblings_K.
    change (3 * (0 / 3)) with 0. change (0 + 1) with 1. change (0 + 2) with 2.
    set (l2 := Datatypes.S (Datatypes.S n)) in *.
    assert (Hp1 : 2 < 3 ^ N.of_nat l2).
    { unfold l2. rewrite pow3_S. pose proof (pow3_pos (Datatypes.S n)). lia. }
    assert (Hrd : forall i, i <> 0 -> i <= 2 -> exists v, parse_hash S s c (K l2 i) = Ok v).
    { intros i Hi Hi2. unfold parse_hash. rewrite cache_get_none.
      - exists (sub ls (20 - l2) i). apply (inv_read S ls s l2 (20 - l2) i HI); [lia|lia].
      - intros Hin. apply Hk in Hin as (l' & Hl' & E). apply K_inj in E; [lia|lia|apply pow3_pos]. }
    destruct (Hrd 1) as [v1 Hv1]; [lia|lia|]. destruct (Hrd 2) as [v2 Hv2]; [lia|lia|].
    assert (Hv0 : parse_hash S s c (K l2 0) = Ok a).
    { unfold parse_hash. rewrite Ha. unfold dec_res. rewrite Hdec_enc. reflexivity. }
    rewrite Hv0, Hv1, Hv2. cbn [bind]. rewrite <- path_loop_0.
    set (w := Henc S (H3 S a v1 v2)).
    destruct (IH (cache_set c (K (Datatypes.S n) 0) w)) as (c' & Hc' & Hd' & Hk' & Hg').
    + lia.
    + apply cache_set_nodup, Hd.
    + intros k Hin. apply cache_set_keys in Hin as [->|Hin].
      * exists (Datatypes.S n). split; [lia|reflexivity].
      * apply Hk in Hin as (l' & Hl' & E). exists l'. split; [lia|exact E].
    + exists (H3 S a v1 v2). rewrite cache_get_set, N.eqb_refl. reflexivity.
    + exists c'. split; [exact Hc'|]. split; [exact Hd'|]. split; [exact Hk'|].
      intros l Hl. rewrite Hg' by lia. rewrite cache_get_set.
      destruct (N.eqb_spec (K (Datatypes.S n) 0) (K l 0)) as [E|E]; [|reflexivity].
      apply K0_inj in E. lia.
Qed.

Lemma K21_small i : i <= 2 -> K 21 i < 256 ^ N.of_nat 8.
Proof.
  intros Hi. unfold K. assert (E : geom 21 = 5230176601) by reflexivity. rewrite E.
  assert (E8 : 256 ^ N.of_nat 8 = 18446744073709551616) by reflexivity. rewrite E8. lia.
Qed.

Lemma full_add t x ls : Inv S ls (t_view t) -> t_count t = 3 ^ 20 ->
  exists t', add_commitment_hash S t x = Ok (3 ^ 20, t') /\
    t_view t' (store_key (K 20 0)) = Some (Henc S (H3 S x (Hz S) (Hz S))) /\
    (forall l i, (l <= 20)%nat -> i < 3 ^ N.of_nat l -> (i <> 0 \/ l = 0%nat) ->
       t_view t' (store_key (K l i)) = t_view t (store_key (K l i))) /\
    (forall l, (l <= 20)%nat -> t_view t (store_key (K l 0)) <> None ->
       t_view t' (store_key (K l 0)) <> None).
Proof.
  intros HI Hc. unfold add_commitment_hash. rewrite Hc. unfold get_path_keys, TREE_DEPTH.
  replace (LEAF_START + 3 ^ 20) with (K 21 0) by reflexivity.
  rewrite path_loop_0. cbv zeta. cbn [fst].
  rewrite path_loop_0. set (c0 := cache_set [] (K 21 0) (Henc S x)).
  set (rest := path_loop 19 (K 19 0)).
  rewrite add_loop_cons.
  replace (three_siblings (K 21 0) PLeft) with (K 21 0, K 21 1, K 21 2)
    by (unfold three_siblings, K; rewrite N.add_0_r; reflexivity).
  assert (H0 : parse_hash S (t_view t) c0 (K 21 0) = Ok x).
  { unfold parse_hash, c0. rewrite cache_get_set, N.eqb_refl. unfold dec_res. rewrite Hdec_enc. reflexivity. }
  assert (Hrd : forall i, i <> 0 -> i <= 2 -> parse_hash S (t_view t) c0 (K 21 i) = Ok (Hz S)).
  { intros i Hi Hi2. unfold parse_hash, c0. rewrite cache_get_set.
    destruct (N.eqb_spec (K 21 0) (K 21 i)) as [E|E]; [unfold K in E; lia|]. cbn [cache_get].
    rewrite (inv_out _ _ _ HI); [reflexivity|unfold K; lia|apply K21_small, Hi2]. }
  rewrite H0, (Hrd 1), (Hrd 2) by lia. cbn [bind].
  set (w := H3 S x (Hz S) (Hz S)).
  unfold rest. rewrite <- path_loop_0.
  destruct (full_loop ls (t_view t) HI 19 (cache_set c0 (K 20 0) (Henc S w))) as (c & Hcl & Hd & Hk & Hg).
  - lia.
  - apply cache_set_nodup, cache_set_nodup. constructor.
  - intros k Hin. apply cache_set_keys in Hin as [->|Hin]; [exists 20%nat; split; [lia|reflexivity]|].
    apply cache_set_keys in Hin as [->|[]]. exists 21%nat. split; [lia|reflexivity].
  - exists w. rewrite cache_get_set, N.eqb_refl. reflexivity.
  - rewrite Hcl. cbn [bind]. eexists. split; [reflexivity|]. cbn [t_view].
    assert (Hsm : forall k, In k (map fst c) -> k < 256 ^ N.of_nat 8).
    { intros k Hin. apply Hk in Hin as (l & Hl & ->).
      destruct (Nat.eq_dec l 21) as [->|Hn]; [apply K21_small; lia|].
      apply K_small; [lia|apply pow3_pos]. }
    split; [|split].
    + rewrite kv_set_other by (intros E; symmetry in E; revert E; apply store_key_not_count).
      rewrite flush_get; [|exact Hd|exact Hsm|apply K_small; [lia|apply pow3_pos]].
      rewrite Hg by lia. rewrite cache_get_set, N.eqb_refl. reflexivity.
    + intros l i Hl Hi Hor.
      rewrite kv_set_other by (intros E; symmetry in E; revert E; apply store_key_not_count).
      rewrite flush_get; [|exact Hd|exact Hsm|apply K_small; [lia|exact Hi]].
      rewrite cache_get_none; [reflexivity|]. intros Hin. apply Hk in Hin as (l' & Hl' & E).
      apply K_inj in E; [lia|exact Hi|apply pow3_pos].
    + intros l Hl Hne.
      rewrite kv_set_other by (intros E; symmetry in E; revert E; apply store_key_not_count).
      rewrite flush_get; [|exact Hd|exact Hsm|apply K_small; [lia|apply pow3_pos]].
      destruct (cache_get c (K l 0)); [discriminate|exact Hne].
Qed.

(** Proof nodes of leaf 1 above the leaf level are the old ones. *)
Lemma upper_nodes ls s s' : Inv S ls s -> 1 < len ls ->
  (forall l i, (l <= 20)%nat -> i < 3 ^ N.of_nat l -> (i <> 0 \/ l = 0%nat) ->
     s' (store_key (K l i)) = s (store_key (K l i))) ->
  (forall l, (l <= 20)%nat -> s (store_key (K l 0)) <> None -> s' (store_key (K l 0)) <> None) ->
  forall n l h, (n <= l)%nat -> (l + h = 20)%nat ->
  mapM (make_node S s' s') (firstn n (spec_path l 0)) = Ok (path_nodes S ls h n 0).
Proof.
  intros HI Hlen Hsame Hex. induction n as [|n IH]; intros l h Hnl Hlh; [reflexivity|].
  destruct l as [|l]; [lia|]. cbn [spec_path firstn mapM path_nodes].
  change (0 / 3) with 0. change (0 mod 3) with 0.
  assert (Hne : s' (store_key (K (Datatypes.S l) 0)) <> None).
  { apply Hex; [lia|]. rewrite (inv_node _ _ _ HI _ h 0 Hlh (pow3_pos _)). rewrite N.mul_0_l.
    destruct (N.leb_spec (len ls) 0); [lia|discriminate]. }
  unfold make_node at 1. destruct (s' (store_key (K (Datatypes.S l) 0))) as [b|]; [|contradiction].
  rewrite two_siblings_K. change (0 mod 3) with 0. cbv beta iota. change (3 * (0 / 3)) with 0.
  change (0 + 1) with 1. change (0 + 2) with 2. change (dir 0) with PLeft.
  assert (Hp : 2 < 3 ^ N.of_nat (Datatypes.S l)).
  { rewrite pow3_S. pose proof (pow3_pos l). lia. }
  assert (Hrd : forall i, i <> 0 -> i <= 2 -> read_default S s' (K (Datatypes.S l) i) = Ok (sub ls h i)).
  { intros i Hi Hi2. rewrite <- (inv_read S ls s _ h i HI Hlh) by lia. unfold read_default.
    rewrite Hsame by lia. reflexivity. }
  rewrite (Hrd 1), (Hrd 2) by lia. cbn [bind]. rewrite (IH l (Datatypes.S h)) by lia.
  reflexivity.
Qed.
End Full.

Lemma path_nodes_1 S ls n : path_nodes S ls 0 (Datatypes.S n) 1 =
    {| pn_sib1 := subtree (Hz S) (H3 S) ls 0 0; pn_sib2 := subtree (Hz S) (H3 S) ls 0 2;
        pn_path := PMiddle |} :: path_nodes S ls 1 n 0.
Proof. reflexivity. Qed.

Lemma spec_path_1 l n : firstn (Datatypes.S n) (spec_path (Datatypes.S l) 1) =
   (K (Datatypes.S l) 1, PMiddle) :: firstn n (spec_path l 0).
Proof. reflexivity. Qed.

Lemma toy_additive nodes a d :
  fold_left (verify_step toy) nodes (a + d) = fold_left (verify_step toy) nodes a + d.
Proof.
  revert a; induction nodes as [|n nodes IH]; intros a; cbn [fold_left]; [reflexivity|].
  rewrite <- IH. f_equal. unfold verify_step. destruct (pn_path toy n); cbn [H3 toy]; lia.
Qed.

Lemma adds_within (xs : list N) (a : alog (A := N)) :
  N.of_nat (length (cur a) + length xs) <= capacity -> within_capacity a (map AAdd xs).
Proof.
  revert a; induction xs as [|x xs IH]; intros a Hc; cbn [map within_capacity]; [exact I|].
  cbn [length] in Hc. split.
  - cbn [astep cur]. rewrite app_length; cbn [length]. lia.
  - apply IH. cbn [astep cur]. rewrite app_length; cbn [length]. lia.
Qed.

Lemma adds_cur (xs : list N) (a : alog (A := N)) :
  cur (fold_left astep (map AAdd xs) a) = cur a ++ xs.
Proof.
  revert a; induction xs as [|x xs IH]; intros a; cbn [map fold_left]; [rewrite app_nil_r; reflexivity|].
  rewrite IH. cbn [astep cur]. rewrite <- app_assoc. reflexivity.
Qed.

Lemma full_verify_false (xs : list (HA toy)) :
  2 < N.of_nat (length xs) ->
  (forall i, i < 3 -> subtree (Hz toy) (H3 toy) xs 0 i = 0) ->
  forall v u,
  verify toy (0 : HA toy)
    {| pf_nodes := {| pn_sib1 := 6 : HA toy; pn_sib2 := 0 : HA toy; pn_path := PMiddle |}
                     :: path_nodes toy xs 1 19 0;
       pf_root := subtree (Hz toy) (H3 toy) xs 20 0; pf_version := v; pf_uid := u |} = false.
Proof.
  intros Hbig Hl0 v u. unfold verify. cbn [pf_nodes pf_root].
  pose proof (verify_path_nodes toy xs 1 ltac:(lia) 20 0 1 eq_refl) as Hgood.
  change (0 + 20)%nat with 20%nat in Hgood.
  rewrite N.div_small in Hgood by reflexivity.
  rewrite path_nodes_1 in Hgood. 
  rewrite !Hl0 in Hgood by lia.
  revert Hgood. generalize (path_nodes toy xs 1 19 0) as nodes.
  generalize (subtree (Hz toy) (H3 toy) xs 20 0) as r. clear. intros r nodes Hgood.
  cbn [fold_left] in Hgood |- *.
  change (verify_step toy (0 : N) {| pn_sib1 := 6 : HA toy; pn_sib2 := 0 : HA toy; pn_path := PMiddle |})
    with (1 + 6).
  change (verify_step toy (0 : N) {| pn_sib1 := 0 : HA toy; pn_sib2 := 0 : HA toy; pn_path := PMiddle |})
    with 1 in Hgood.
  rewrite toy_additive, Hgood. apply N.eqb_neq. cbn [HA toy] in *. lia.
Qed.

Lemma full_corrupts xs : N.of_nat (length xs) = 3 ^ 20 -> Forall (eq 0) xs ->
  exists t t' p,
    run_new toy (map AAdd xs) = Ok t /\ t_count t = 3 ^ 20 /\
    add_commitment_hash toy t 5 = Ok (3 ^ 20, t') /\
    get_root toy t' = get_root toy t /\
    generate_proof toy t' 1 = Ok p /\ nth_error xs 1 = Some 0 /\ verify toy (0 : HA toy) p = false.
Proof.
  intros Hlen Hz0.
  assert (Hw : within_capacity (A := HA toy) ainit (map AAdd xs)).
  { apply adds_within. cbn [ainit cur length]. rewrite Nat.add_0_l. unfold capacity. lia. }
  destruct (run_new_rel toy _ Hw) as (t & Ht & Hc & HI & _).
  assert (Hcur : cur (arun (A := HA toy) (map AAdd xs)) = xs).
  { unfold arun. etransitivity; [apply adds_cur|]. reflexivity. }
  rewrite Hcur in Hc, HI.
  assert (Hc' : t_count t = 3 ^ 20) by (etransitivity; [exact Hc|exact Hlen]). clear Hc; rename Hc' into Hc.
  destruct (full_add toy t 5 xs HI Hc) as (t' & Ha & Hleaf & Hsame & Hex).
  assert (Hbig : 2 < N.of_nat (length xs)).
  { rewrite Hlen. reflexivity. }
  assert (Hbig' : 2 < N.of_nat (@length (HA toy) xs)) by exact Hbig.
  assert (Hroot : root_at toy (t_view t') 20 = root_at toy (t_view t) 20).
  { unfold root_at, TREE_DEPTH. cbn [Nat.ltb Nat.leb]. rewrite Nat.sub_diag. cbn [geom].
    change (store_key 0) with (store_key (K 0 0)). rewrite Hsame; [reflexivity|lia|reflexivity|right; reflexivity]. }
  assert (Hl0 : forall i, i < 3 -> subtree (Hz toy) (H3 toy) xs 0 i = 0).
  { intros i Hi. rewrite (subtree_leaf toy) by lia. rewrite Forall_forall in Hz0.
    symmetry. apply Hz0. apply nth_In. lia. }
  set (n0 := {| pn_sib1 := 6 : HA toy; pn_sib2 := 0 : HA toy; pn_path := PMiddle |} : proof_node toy).
  assert (Hnodes : mapM (make_node toy (t_view t') (t_view t')) (firstn 20 (spec_path 20 1)) =
                   Ok (n0 :: path_nodes toy xs 1 19 0)).
  { rewrite spec_path_1.
    cbn [mapM].
    pose proof (upper_nodes toy xs _ _ HI ltac:(lia) Hsame Hex 19 19 1 ltac:(lia) ltac:(lia)) as Hup.
    unfold make_node at 1.
    rewrite (Hsame 20%nat 1) by (try lia; reflexivity).
    rewrite (inv_exists toy xs _ 20 0 1 HI) by (try reflexivity; change (3 ^ N.of_nat 0) with 1; lia).
    replace PMiddle with (dir 1) at 1 by reflexivity.
    rewrite two_siblings_K. change (1 mod 3) with 1. cbv beta iota. change (3 * (1 / 3)) with 0.
    change (0 + 2) with 2. change (dir 1) with PMiddle.
    unfold read_default at 1. rewrite Hleaf. unfold dec_res. rewrite Hdec_enc. cbn [bind].
    assert (Hr2 : read_default toy (t_view t') (K 20 2) = Ok (0 : HA toy)).
    { rewrite <- (Hl0 2) by lia. rewrite <- (inv_read toy xs (t_view t) 20 0 2 HI) by (try reflexivity; lia).
      unfold read_default. rewrite Hsame by (try lia; reflexivity). reflexivity. }
    rewrite Hr2. cbn [bind].
    rewrite Hup. reflexivity. }
  assert (Hpf : generate_proof toy t' 1 = Ok {| pf_nodes := n0 :: path_nodes toy xs 1 19 0;
      pf_root := subtree (Hz toy) (H3 toy) xs 20 0; pf_version := version t'; pf_uid := 1 |}).
  { unfold generate_proof, generate_proof_with_depth, TREE_DEPTH. cbn [Nat.ltb Nat.leb orb].
    change (3 ^ N.of_nat 20 <? 1) with false. cbn match.
    rewrite get_path_keys_spec by reflexivity. rewrite Hnodes. cbn [bind].
    unfold get_root_with_depth. rewrite Hroot.
    rewrite (root_at_inv toy xs) by (try exact HI; try lia; right; reflexivity). reflexivity. }
  exists t, t'. eexists. split; [exact Ht|]. split; [exact Hc|]. split; [exact Ha|].
  split; [exact Hroot|]. split; [exact Hpf|]. split.
  { destruct xs as [|a [|b xs]]; [cbn in Hbig; lia|cbn in Hbig; lia|].
    inversion Hz0 as [|? ? _ Hz1]; subst. inversion Hz1; subst. reflexivity. }
  exact (full_verify_false xs Hbig Hl0 _ _).
Qed.

Lemma full_refuted_lemma : exists xs t t' p,
    N.of_nat (length xs) = 3 ^ 20 /\
    run_new toy (map AAdd xs) = Ok t /\ t_count t = 3 ^ 20 /\
    add_commitment_hash toy t 5 = Ok (3 ^ 20, t') /\
    get_root toy t' = get_root toy t /\
    generate_proof toy t' 1 = Ok p /\ nth_error xs 1 = Some 0 /\ verify toy (0 : HA toy) p = false.
Proof.
  exists (repeat 0 (N.to_nat (3 ^ 20))).
  assert (Hl : N.of_nat (length (repeat 0 (N.to_nat (3 ^ 20)))) = 3 ^ 20).
  { rewrite repeat_length. apply N2Nat.id. }
  destruct (full_corrupts _ Hl) as (t & t' & p & Hx).
  - apply Forall_forall. intros x Hx. apply repeat_spec in Hx. congruence.
  - exists t, t', p. split; [exact Hl|exact Hx].
Qed.

(** ** Concrete witnesses *)
Lemma get_leaf_wrong : exists t,
  run_new toy2 [AAdd (11 : HA toy2); AAdd (22 : HA toy2)] = Ok t /\
  get_leaf toy2 t 0 <> Ok (Some (11 : HA toy2)) /\ get_leaf toy2 t 7 = Ok None /\ t_count t = 2.
Proof. eexists. split; [vm_compute; reflexivity|]. vm_compute. repeat split; discriminate. Qed.

Lemma commit_failure_desync : exists t,
  run_new toy2 [AAdd (11 : HA toy2)] = Ok t /\
  fst (commit t false) = Err /\ t_count (snd (commit t false)) = 1 /\
  generate_proof toy2 (snd (commit t false)) 0 = Err /\
  exists uid t'', add_commitment_hash toy2 (snd (commit t false)) (33 : HA toy2) = Ok (uid, t'') /\
    uid = 1 /\ get_root toy2 t'' <> Ok (spec_root (Hz toy2) (H3 toy2) [33 : HA toy2]) /\
    get_root toy2 t'' <> Ok (spec_root (Hz toy2) (H3 toy2) [11 : HA toy2; 33 : HA toy2]).
Proof.
  eexists. split; [vm_compute; reflexivity|].
  split; [reflexivity|]. split; [reflexivity|]. split; [vm_compute; reflexivity|].
  eexists. eexists. split; [vm_compute; reflexivity|]. split; [reflexivity|].
  split; vm_compute; discriminate.
Qed.

(** id = 3^depth passes the guard although it is outside the subtree. *)
Lemma depth_guard_wrong : exists t p,
  run_new toy2 [AAdd (11 : HA toy2); AAdd (22 : HA toy2)] = Ok t /\
  generate_proof_with_depth toy2 t 1 0 = Ok p /\ verify toy2 (22 : HA toy2) p = false.
Proof. eexists. eexists. split; [vm_compute; reflexivity|]. split; [vm_compute; reflexivity|]. vm_compute. reflexivity. Qed.

(** The immutable tree returns 20 nodes and the root of another depth. *)
Lemma immutable_depth_wrong : exists t it p,
  run_new toy2 [AAdd (11 : HA toy2); AAdd (22 : HA toy2); ACommit] = Ok t /\
  itree_new (t_db t) = Ok it /\
  it_generate_proof_with_depth toy2 it 1 1 = Ok p /\
  length (pf_nodes _ p) = 20%nat /\ verify toy2 (22 : HA toy2) p = false.
Proof.
  eexists. eexists. eexists. split; [vm_compute; reflexivity|]. split; [vm_compute; reflexivity|].
  split; [vm_compute; reflexivity|]. split; vm_compute; reflexivity.
Qed.
