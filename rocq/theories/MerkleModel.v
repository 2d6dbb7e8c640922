(** Model of accumulators/src/merkle_tree.rs: the 3-ary persistent Merkle tree. *)
From Coq Require Import List NArith Bool.
From Verif Require Import Base MerkleSpec.
Import ListNotations.
Local Open Scope N_scope.
Local Open Scope res_scope.

(** The hash environment: [HA] stands for BLSScalar, [Hz] for BLSScalar::zero(),
    [Henc]/[Hdec] for zei_to_bytes / zei_from_bytes, and [H3 a b c] for
    [RescueInstance::rescue(&[a,b,c,zero])[0]] (merkle_tree.rs:129-130, 421).
    The hash is an arbitrary function; only decode-after-encode is assumed. *)
Record hashsys := {
  HA : Type;
  Hz : HA;
  Heqb : HA -> HA -> bool;
  Heqb_spec : forall a b, reflect (a = b) (Heqb a b);
  Henc : HA -> list N;
  Hdec : list N -> option HA;
  Hdec_enc : forall a, Hdec (Henc a) = Some a;
  H3 : HA -> HA -> HA -> HA;
}.

(** merkle_tree.rs:16 *)
Definition TREE_DEPTH : nat := 20.
(** merkle_tree.rs:19 *)
Definition LEAF_START : N := 1743392200.
(** merkle_tree.rs:21 *)
Definition KEY_PAD : list N := [0;0;0;0].
(** merkle_tree.rs:22 *)
Definition ROOT_KEY : list N := [0;0;0;0;0;0;0;0;0;0;0;0].
(** merkle_tree.rs:23 *)
Definition ENTRY_COUNT_KEY : list N := [0;0;0;1].

(** merkle_tree.rs:452-461 (enum TreePath) *)
Inductive tree_path := PLeft | PMiddle | PRight.

(** The key under which a tree node is stored: KEY_PAD then the u64 in
    big-endian order (merkle_tree.rs:103-104 and the other occurrences). *)
Definition store_key (k : N) : list N := KEY_PAD ++ be_bytes 8 k.

(** merkle_tree.rs:488-505 (get_path_keys), the loop body: current key to
    (pushed entry, next key). *)
Definition path_step (key : N) : (N * tree_path) * N :=
  match key mod 3 with
  | 1 => ((key, PLeft), key / 3)
  | 2 => ((key, PMiddle), key / 3)
  | _ => ((key, PRight), if key =? 0 then 0 else key / 3 - 1)
  end.

Fixpoint path_loop (n : nat) (key : N) : list (N * tree_path) :=
  match n with
  | O => []
  | S n' => let '(e, key') := path_step key in e :: path_loop n' key'
  end.

(** merkle_tree.rs:484-507.  u64 addition does not overflow for the uids used
    (uid <= 3^20); unbounded N here. *)
Definition get_path_keys (uid : N) : list (N * tree_path) :=
  path_loop (S TREE_DEPTH) (LEAF_START + uid).

(** [3u64.pow(0) + ... + 3u64.pow(n-1)], merkle_tree.rs:210-213. *)
Fixpoint geom (n : nat) : N :=
  match n with O => 0 | S n' => geom n' + 3 ^ N.of_nat n' end.

(** ** The key-value store (crate `storage`, not in the repository).
    A store is a partial map from byte strings to byte strings.  A session sees
    its own writes; [commit(h)] makes the session's view the version of height
    [h]; dropping the session loses uncommitted writes; [get_v] reads the
    snapshot of a version (the versioned window of the crate is assumed large
    enough). *)
Definition kv := list N -> option (list N).
Definition kv_empty : kv := fun _ => None.
Definition kv_set (s : kv) (k v : list N) : kv :=
  fun k' => if bytes_eqb k k' then Some v else s k'.

(** Committed data: one snapshot per height, newest first.  [height()] is 0
    before the first commit (merkle_tree.rs:268 unwrap_or(0)). *)
Record db := { snaps : list kv }.
Definition db_height (d : db) : N :=
  match snaps d with [] => 0 | _ :: l => N.of_nat (length l) end.
Definition db_view (d : db) : kv :=
  match snaps d with [] => kv_empty | s :: _ => s end.
(** The snapshot of height [v] (None if no such version). *)
Definition db_at (d : db) (v : N) : option kv :=
  nth_error (rev (snaps d)) (N.to_nat v).

Section Tree.
Context (S : hashsys).
Notation A := (HA S).

(** merkle_tree.rs:55-58: the tree plus its store: committed database, the
    session's view, and the in-memory entry count. *)
Record tree := { t_count : N; t_db : db; t_view : kv }.

(** zei_from_bytes as a result (merkle_tree.rs:101, 106). *)
Definition dec_res (b : list N) : res A :=
  match Hdec S b with Some a => Ok a | None => Err end.

(** u64::from_be_bytes of the first 8 bytes; shorter values panic on indexing
    (merkle_tree.rs:66-69). *)
Definition parse_count (b : list N) : res N :=
  if Nat.leb 8 (length b) then Ok (be_value (firstn 8 b)) else Panic.

(** merkle_tree.rs:62-84 (PersistentMerkleTree::new) on a fresh session over the
    database.  Simplification: good2_commit succeeds. *)
Definition tree_new (d : db) : res tree :=
  match db_view d ENTRY_COUNT_KEY with
  | Some b => rmap (fun c => {| t_count := c; t_db := d; t_view := db_view d |}) (parse_count b)
  | None =>
    let v1 := kv_set (db_view d) ROOT_KEY (Henc S (Hz S)) in
    let v2 := kv_set v1 ENTRY_COUNT_KEY (be_bytes 8 0) in
    (* commit(0): the snapshot of height 0 *)
    Ok {| t_count := 0; t_db := {| snaps := [v2] |}; t_view := v2 |}
  end.

(** The per-insertion cache (merkle_tree.rs:463-482): an association list with
    one value per key. *)
Definition cache := list (N * list N).
Fixpoint cache_get (c : cache) (k : N) : option (list N) :=
  match c with
  | [] => None
  | (k', v) :: c' => if k' =? k then Some v else cache_get c' k
  end.
Fixpoint cache_set (c : cache) (k : N) (v : list N) : cache :=
  match c with
  | [] => [(k, v)]
  | (k', v') :: c' => if k' =? k then (k, v) :: c' else (k', v') :: cache_set c' k v
  end.

(** merkle_tree.rs:99-109 (parse_hash) *)
Definition parse_hash (s : kv) (c : cache) (key : N) : res A :=
  match cache_get c key with
  | Some b => dec_res b
  | None => match s (store_key key) with
            | Some b => dec_res b
            | None => Ok (Hz S)
            end
  end.

(** merkle_tree.rs:111-127: the three children in order. *)
Definition three_siblings (node_key : N) (p : tree_path) : N * N * N :=
  match p with
  | PLeft => (node_key, node_key + 1, node_key + 2)
  | PMiddle => (node_key - 1, node_key, node_key + 1)
  | PRight => (node_key - 2, node_key - 1, node_key)
  end.

(** merkle_tree.rs:98-132: the loop over keys[0..TREE_DEPTH]; [keys] is the
    remaining path, whose second entry names the parent. *)
Fixpoint add_loop (s : kv) (n : nat) (keys : list (N * tree_path)) (c : cache) : res cache :=
  match n with
  | O => Ok c
  | Datatypes.S n' =>
    match keys with
    | (node_key, p) :: (((parent, _) :: _) as rest) =>
      let '(k0, k1, k2) := three_siblings node_key p in
      do s0 <- parse_hash s c k0;
      do s1 <- parse_hash s c k1;
      do s2 <- parse_hash s c k2;
      add_loop s n' rest (cache_set c parent (Henc S (H3 S s0 s1 s2)))
    | _ => Panic
    end
  end.

(** merkle_tree.rs:134-138: flush the cache into the session.  The HashMap's
    iteration order is irrelevant (distinct keys). *)
Definition flush (s : kv) (c : cache) : kv :=
  fold_left (fun s' kv => kv_set s' (store_key (fst kv)) (snd kv)) c s.

(** merkle_tree.rs:87-144 (add_commitment_hash) *)
Definition add_commitment_hash (t : tree) (h : A) : res (N * tree) :=
  let keys := get_path_keys (t_count t) in
  match keys with
  | [] => Panic
  | leaf :: _ =>
    let uid := t_count t in
    let c0 := cache_set [] (fst leaf) (Henc S h) in
    do c <- add_loop (t_view t) TREE_DEPTH keys c0;
    let s1 := flush (t_view t) c in
    let cnt := t_count t + 1 in
    let s2 := kv_set s1 ENTRY_COUNT_KEY (be_bytes 8 cnt) in
    Ok (uid, {| t_count := cnt; t_db := t_db t; t_view := s2 |})
  end.

(** merkle_tree.rs:440-450 (ProofNode) and 427-438 (Proof) *)
Record proof_node := { pn_sib1 : A; pn_sib2 : A; pn_path : tree_path }.
Record proof := { pf_nodes : list proof_node; pf_root : A; pf_version : N; pf_uid : N }.

(** merkle_tree.rs:175-179 *)
Definition two_siblings (key : N) (p : tree_path) : N * N :=
  match p with
  | PLeft => (key + 1, key + 2)
  | PMiddle => (key - 1, key + 1)
  | PRight => (key - 2, key - 1)
  end.

(** merkle_tree.rs:180-189: a sibling read, zero by default. *)
Definition read_default (s : kv) (key : N) : res A :=
  match s (store_key key) with
  | Some b => dec_res b
  | None => Ok (Hz S)
  end.

(** merkle_tree.rs:159-192: one proof node.  [se] is the view used for the
    existence test, [s] the view used for the values (they differ in the
    immutable tree). *)
Definition make_node (se s : kv) (e : N * tree_path) : res proof_node :=
  let '(key, p) := e in
  match se (store_key key) with
  | None => Err
  | Some _ =>
    let '(k1, k2) := two_siblings key p in
    do a1 <- read_default s k1;
    do a2 <- read_default s k2;
    Ok {| pn_sib1 := a1; pn_sib2 := a2; pn_path := p |}
  end.

(** merkle_tree.rs:267-269 (version) *)
Definition version (t : tree) : N := db_height (t_db t).

(** merkle_tree.rs:209-221 (get_root_with_depth).  For depth > TREE_DEPTH the
    usize subtraction underflows: panic (debug) -- modelled as Panic. *)
Definition root_at (s : kv) (depth : nat) : res A :=
  if Nat.ltb TREE_DEPTH depth then Panic
  else match s (store_key (geom (TREE_DEPTH - depth))) with
       | Some b => dec_res b
       | None => Err
       end.
Definition get_root_with_depth (t : tree) (depth : nat) : res A := root_at (t_view t) depth.
(** merkle_tree.rs:204-206 *)
Definition get_root (t : tree) : res A := get_root_with_depth t TREE_DEPTH.

(** merkle_tree.rs:152-201 (generate_proof_with_depth) *)
Definition generate_proof_with_depth (t : tree) (id : N) (depth : nat) : res proof :=
  if Nat.ltb TREE_DEPTH depth || (3 ^ N.of_nat depth <? id) then Err
  else
    do nodes <- mapM (make_node (t_view t) (t_view t)) (firstn depth (get_path_keys id));
    do r <- get_root_with_depth t depth;
    Ok {| pf_nodes := nodes; pf_root := r; pf_version := version t; pf_uid := id |}.
(** merkle_tree.rs:147-149 *)
Definition generate_proof (t : tree) (id : N) : res proof :=
  generate_proof_with_depth t id TREE_DEPTH.

(** merkle_tree.rs:224-239 (get_root_with_depth_and_version) *)
Definition get_root_with_depth_and_version (t : tree) (depth : nat) (v : N) : res A :=
  if v =? 0 then Ok (Hz S)
  else match db_at (t_db t) v with
       | Some s => root_at s depth
       | None => Err
       end.

(** merkle_tree.rs:242-253 (commit).  [good] is the outcome of good2_commit, a
    property of the storage session outside the model; when it is false the
    session is discarded and an error is returned, the in-memory count staying
    as it is. *)
Definition commit (t : tree) (good : bool) : res N * tree :=
  if good then
    let d := {| snaps := t_view t :: snaps (t_db t) |} in
    (Ok (db_height d), {| t_count := t_count t; t_db := d; t_view := t_view t |})
  else (Err, {| t_count := t_count t; t_db := t_db t; t_view := db_view (t_db t) |}).

(** merkle_tree.rs:256-264 (get_leaf) *)
Definition get_leaf (t : tree) (uid : N) : res (option A) :=
  match t_view t (store_key uid) with
  | Some b => rmap Some (dec_res b)
  | None => Ok None
  end.

(** ** ImmutablePersistentMerkleTree (merkle_tree.rs:277-409).
    The tree reads the committed database only; its version is the height. *)
Record itree := { it_count : N; it_db : db }.

(** merkle_tree.rs:286-299 *)
Definition itree_new (d : db) : res itree :=
  match db_view d ENTRY_COUNT_KEY with
  | Some b => rmap (fun c => {| it_count := c; it_db := d |}) (parse_count b)
  | None => Ok {| it_count := 0; it_db := d |}
  end.

Definition it_version (t : itree) : N := db_height (it_db t).

(** merkle_tree.rs:371-386 *)
Definition it_get_root_with_depth_and_version (t : itree) (depth : nat) (v : N) : res A :=
  if v =? 0 then Ok (Hz S)
  else match db_at (it_db t) v with
       | Some s => root_at s depth
       | None => Err
       end.
(** merkle_tree.rs:365-368 *)
Definition it_get_root_with_depth (t : itree) (depth : nat) : res A :=
  it_get_root_with_depth_and_version t depth (it_version t).

(** merkle_tree.rs:307-357: note keys[0..TREE_DEPTH] at line 315 whatever the
    depth, the existence test on the latest store and values at version v. *)
Definition it_generate_proof_with_depth (t : itree) (id : N) (depth : nat) : res proof :=
  if Nat.ltb TREE_DEPTH depth || (3 ^ N.of_nat depth <? id) then Err
  else
    let s := match db_at (it_db t) (it_version t) with Some s => s | None => kv_empty end in
    do nodes <- mapM (make_node (db_view (it_db t)) s) (firstn TREE_DEPTH (get_path_keys id));
    do r <- it_get_root_with_depth t depth;
    Ok {| pf_nodes := nodes; pf_root := r; pf_version := it_version t; pf_uid := id |}.

(** merkle_tree.rs:415-423: one step of verify. *)
Definition verify_step (next : A) (n : proof_node) : A :=
  match pn_path n with
  | PLeft => H3 S next (pn_sib1 n) (pn_sib2 n)
  | PMiddle => H3 S (pn_sib1 n) next (pn_sib2 n)
  | PRight => H3 S (pn_sib1 n) (pn_sib2 n) next
  end.

(** merkle_tree.rs:412-425 (verify) *)
Definition verify (leaf : A) (p : proof) : bool :=
  Heqb S (fold_left verify_step (pf_nodes p) leaf) (pf_root p).

(** ** Histories: calls of add_commitment_hash, commit (accepted by the store),
    and a crash, i.e. dropping the tree with its session and calling new again. *)
Definition step (t : tree) (o : aop) : res tree :=
  match o with
  | AAdd h => rmap snd (add_commitment_hash t h)
  | ACommit => Ok (snd (commit t true))
  | ACrash => tree_new (t_db t)
  end.

Fixpoint run (t : tree) (os : list aop) : res tree :=
  match os with
  | [] => Ok t
  | o :: os' => bind (step t o) (fun t' => run t' os')
  end.

(** A tree opened on an empty database and driven through a history. *)
Definition run_new (os : list aop) : res tree :=
  bind (tree_new {| snaps := [] |}) (fun t => run t os).

End Tree.
