(** Property theorems for the persistent Merkle tree (C01 - C08). *)
From Coq Require Import List NArith.
From Verif Require Import Base MerkleModel MerkleSpec MerkleProofs MerkleRefute.
Import ListNotations.
Local Open Scope N_scope.

(** C01: after any history within capacity, every inserted leaf has a proof for
    its own position that verifies against the reported root. *)
Theorem C01_membership_proofs_verify : forall (S : hashsys) (os : list aop),
  within_capacity ainit os ->
  exists t, run_new S os = Ok t /\
  forall id leaf, nth_error (cur (arun os)) (N.to_nat id) = Some leaf ->
  exists p, generate_proof S t id = Ok p /\ verify S leaf p = true /\
            get_root S t = Ok (pf_root _ p) /\ pf_uid _ p = id /\
            position (map (fun n => digit (pn_path _ n)) (pf_nodes _ p)) = id.
Proof. exact membership_lemma. Qed.
Print Assumptions C01_membership_proofs_verify.

(** C01 (other half): ids that were never inserted get no proof. *)
Theorem C01_absent_ids_refused : forall (S : hashsys) (os : list aop),
  within_capacity ainit os ->
  exists t, run_new S os = Ok t /\
  forall id, N.of_nat (length (cur (arun os))) <= id -> generate_proof S t id = Err.
Proof. exact absent_lemma. Qed.
Print Assumptions C01_absent_ids_refused.

(** C02: the root and the count are those of the abstract tree of the leaves. *)
Theorem C02_root_is_abstract_root : forall (S : hashsys) (os : list aop),
  within_capacity ainit os ->
  exists t, run_new S os = Ok t /\
    get_root S t = Ok (spec_root (Hz S) (H3 S) (cur (arun os))) /\
    t_count t = N.of_nat (length (cur (arun os))).
Proof. exact root_lemma. Qed.
Print Assumptions C02_root_is_abstract_root.

(** C03: an accepted 20-node proof against the root of [ls] names a position
    holding that leaf (or an empty position and the zero leaf), or else the
    compression function is broken on triples computed from the proof and the
    leaves. *)
Theorem C03_proof_binds_leaf : forall (S : hashsys) (ls : list (HA S)) (leaf : HA S) (p : proof S),
  length (pf_nodes _ p) = 20%nat -> pf_root _ p = spec_root (Hz S) (H3 S) ls ->
  verify S leaf p = true ->
  let path := map node_view (pf_nodes _ p) in
  let i := position (map digit_of path) in
  (i < N.of_nat (length ls) /\ nth_error ls (N.to_nat i) = Some leaf) \/
  (N.of_nat (length ls) <= i /\ leaf = Hz S) \/
  exists h, (h < 20)%nat /\ broken_at (Hz S) (H3 S) ls leaf path h.
Proof. exact binding. Qed.
Print Assumptions C03_proof_binds_leaf.

(** C04: a crash after any uncommitted insertions returns exactly to the state
    right after the last commit. *)
Theorem C04_crash_recovers_last_commit : forall (S : hashsys) (os : list aop) (xs : list (HA S)),
  within_capacity ainit (os ++ ACommit :: map AAdd xs) ->
  run_new S (os ++ ACommit :: map AAdd xs ++ [ACrash]) = run_new S (os ++ [ACommit]).
Proof. exact crash_lemma. Qed.
Print Assumptions C04_crash_recovers_last_commit.

(** C04, finding: when the store refuses a commit, the insertions are dropped but
    the in-memory counter keeps them: ids are then handed out for a tree that
    does not contain the earlier leaves. *)
Theorem C04_failed_commit_desynchronises_refuted : exists t,
  run_new toy2 [AAdd (11 : HA toy2)] = Ok t /\
  fst (commit t false) = Err /\ t_count (snd (commit t false)) = 1 /\
  generate_proof toy2 (snd (commit t false)) 0 = Err /\
  exists uid t'', add_commitment_hash toy2 (snd (commit t false)) (33 : HA toy2) = Ok (uid, t'') /\
    uid = 1 /\ get_root toy2 t'' <> Ok (spec_root (Hz toy2) (H3 toy2) [33 : HA toy2]) /\
    get_root toy2 t'' <> Ok (spec_root (Hz toy2) (H3 toy2) [11 : HA toy2; 33 : HA toy2]).
Proof. exact commit_failure_desync. Qed.
Print Assumptions C04_failed_commit_desynchronises_refuted.

(** C05: the root of a committed version is the abstract root of the leaves at
    that commit, and no later history changes it. *)
Theorem C05_versions_are_immutable : forall (S : hashsys) (os os' : list aop) (v : N) (ls : list (HA S)),
  within_capacity ainit (os ++ os') ->
  nth_error (rev (committed (arun os))) (N.to_nat v) = Some ls ->
  exists t t', run_new S os = Ok t /\ run_new S (os ++ os') = Ok t' /\
    get_root_with_depth_and_version S t' 20 v = get_root_with_depth_and_version S t 20 v /\
    get_root_with_depth_and_version S t 20 v = Ok (spec_root (Hz S) (H3 S) ls).
Proof. exact version_stable_lemma. Qed.
Print Assumptions C05_versions_are_immutable.

(** C05: the immutable tree shows the last committed leaves, and its full-depth
    proofs verify. *)
Theorem C05_immutable_tree_reads_last_commit : forall (S : hashsys) (os : list aop),
  within_capacity ainit os ->
  exists t it, run_new S os = Ok t /\ itree_new (t_db t) = Ok it /\
  let ls := hd [] (committed (arun os)) in
  it_count it = N.of_nat (length ls) /\
  it_get_root_with_depth S it 20 = Ok (spec_root (Hz S) (H3 S) ls) /\
  forall id leaf, nth_error ls (N.to_nat id) = Some leaf ->
  exists p, it_generate_proof_with_depth S it id 20 = Ok p /\ verify S leaf p = true /\
            pf_uid _ p = id /\ pf_version _ p = it_version it.
Proof. exact immutable_lemma. Qed.
Print Assumptions C05_immutable_tree_reads_last_commit.

(** C06, refuted: get_leaf does not return the leaf stored under its id. *)
Theorem C06_get_leaf_refuted : exists t,
  run_new toy2 [AAdd (11 : HA toy2); AAdd (22 : HA toy2)] = Ok t /\
  get_leaf toy2 t 0 <> Ok (Some (11 : HA toy2)) /\ get_leaf toy2 t 7 = Ok None /\ t_count t = 2.
Proof. exact get_leaf_wrong. Qed.
Print Assumptions C06_get_leaf_refuted.

(** C06, what does hold (missing: the offset is not applied by get_leaf itself):
    the leaf of [id] is found at LEAF_START + id, and get_leaf(0) is the root. *)
Theorem C06_get_leaf_partial : forall (S : hashsys) (os : list aop),
  within_capacity ainit os ->
  exists t, run_new S os = Ok t /\
  (forall id leaf, nth_error (cur (arun os)) (N.to_nat id) = Some leaf ->
     get_leaf S t (1743392200 + id) = Ok (Some leaf)) /\
  get_leaf S t 0 = Ok (Some (spec_root (Hz S) (H3 S) (cur (arun os)))).
Proof. exact get_leaf_lemma. Qed.
Print Assumptions C06_get_leaf_partial.

(** C07, mutable tree (missing: id = 3^depth is not rejected, and the immutable
    tree; see the refutations below). *)
Theorem C07_reduced_depth_partial : forall (S : hashsys) (os : list aop) (depth : nat),
  within_capacity ainit os -> (depth <= 20)%nat ->
  exists t, run_new S os = Ok t /\
  (forall id leaf, id < 3 ^ N.of_nat depth -> nth_error (cur (arun os)) (N.to_nat id) = Some leaf ->
    exists p, generate_proof_with_depth S t id depth = Ok p /\ length (pf_nodes _ p) = depth /\
      verify S leaf p = true /\ get_root_with_depth S t depth = Ok (pf_root _ p) /\
      pf_root _ p = subtree (Hz S) (H3 S) (cur (arun os)) depth 0) /\
  (forall id, 3 ^ N.of_nat depth < id -> generate_proof_with_depth S t id depth = Err).
Proof. exact depth_lemma. Qed.
Print Assumptions C07_reduced_depth_partial.

Theorem C07_guard_off_by_one_refuted : exists t p,
  run_new toy2 [AAdd (11 : HA toy2); AAdd (22 : HA toy2)] = Ok t /\
  generate_proof_with_depth toy2 t 1 0 = Ok p /\ verify toy2 (22 : HA toy2) p = false.
Proof. exact depth_guard_wrong. Qed.
Print Assumptions C07_guard_off_by_one_refuted.

Theorem C07_immutable_reduced_depth_refuted : exists t it p,
  run_new toy2 [AAdd (11 : HA toy2); AAdd (22 : HA toy2); ACommit] = Ok t /\
  itree_new (t_db t) = Ok it /\
  it_generate_proof_with_depth toy2 it 1 1 = Ok p /\
  length (pf_nodes _ p) = 20%nat /\ verify toy2 (22 : HA toy2) p = false.
Proof. exact immutable_depth_wrong. Qed.
Print Assumptions C07_immutable_reduced_depth_refuted.

(** C08, refuted: insertion number 3^20 + 1 succeeds, leaves the root unchanged
    and makes the proof of an existing leaf invalid. *)
Theorem C08_full_tree_refuted : exists xs t t' p,
    N.of_nat (length xs) = 3 ^ 20 /\
    run_new toy (map AAdd xs) = Ok t /\ t_count t = 3 ^ 20 /\
    add_commitment_hash toy t 5 = Ok (3 ^ 20, t') /\
    get_root toy t' = get_root toy t /\
    generate_proof toy t' 1 = Ok p /\ nth_error xs 1 = Some 0 /\ verify toy (0 : HA toy) p = false.
Proof. exact full_refuted_lemma. Qed.
Print Assumptions C08_full_tree_refuted.

(** ** Non-vacuity: a concrete history meeting the hypotheses. *)
Definition sample : list (aop (A := HA toy2)) :=
  [AAdd (11 : HA toy2); AAdd (22 : HA toy2); ACommit; AAdd (33 : HA toy2); ACrash; AAdd (44 : HA toy2); ACommit].
Example sample_within : within_capacity ainit sample.
Proof. cbn -[N.le capacity]; repeat split; vm_compute; discriminate. Qed.
Example sample_leaves : cur (arun sample) = [11; 22; 44] /\
  rev (committed (arun sample)) = [[]; [11; 22]; [11; 22; 44]].
Proof. split; reflexivity. Qed.
Example sample_proof : exists t p, run_new toy2 sample = Ok t /\ generate_proof toy2 t 2 = Ok p /\
  length (pf_nodes _ p) = 20%nat /\
  pf_root _ p = spec_root (Hz toy2) (H3 toy2) [11; 22; 44] /\ verify toy2 (44 : HA toy2) p = true.
Proof.
  eexists. eexists. split; [vm_compute; reflexivity|]. split; [vm_compute; reflexivity|].
  repeat split; vm_compute; reflexivity.
Qed.
Example crash_hypothesis : within_capacity (A := HA toy2) ainit ([AAdd 11] ++ ACommit :: map AAdd [22; 33]).
Proof. cbn -[N.le capacity]; repeat split; vm_compute; discriminate. Qed.
(** The same history, read back: the roots of the three versions, a leaf, and a proof of
    depth 1 for the third leaf; the fourth position is refused only from 4 on. *)
Example C05_C06_C07_case : exists t t1 p, run_new toy2 sample = Ok t /\ run_new toy2 (firstn 3 sample) = Ok t1 /\
  nth_error (rev (committed (arun (firstn 3 sample)))) 1 = Some [11; 22] /\
  get_root_with_depth_and_version toy2 t 20 1 = Ok (spec_root (Hz toy2) (H3 toy2) [11; 22]) /\
  get_root_with_depth_and_version toy2 t1 20 1 = Ok (spec_root (Hz toy2) (H3 toy2) [11; 22]) /\
  spec_root (Hz toy2) (H3 toy2) [11; 22] <> spec_root (Hz toy2) (H3 toy2) [11; 22; 44] /\
  get_leaf toy2 t (1743392200 + 2) = Ok (Some 44) /\
  generate_proof_with_depth toy2 t 2 1 = Ok p /\ length (pf_nodes _ p) = 1%nat /\ verify toy2 (44 : HA toy2) p = true /\
  generate_proof_with_depth toy2 t 4 1 = Err.
Proof.
  do 3 eexists. do 2 (split; [vm_compute; reflexivity|]). do 3 (split; [vm_compute; reflexivity|]).
  split; [vm_compute; discriminate|]. do 4 (split; [vm_compute; reflexivity|]). vm_compute. reflexivity.
Qed.
