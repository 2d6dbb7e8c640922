{"id": "C01", "title": "Every inserted commitment has a membership proof that verifies", "statement": "After any history of add_commitment_hash and commit on a PersistentMerkleTree holding at most 3^20 leaves, generate_proof(id) succeeds for every id below entry_count, and verify(leaf, proof) accepts exactly because the recomputed root equals the root the tree currently reports; the path is the one of position id.", "quantifier": "all insertion/commit histories, all hash functions, all leaf values, all ids below the entry count", "why_tests_cant": "the number of histories and positions (3^20 leaves, each path of 20 nodes) is far beyond enumeration, and the interaction of cache, store and zero defaults depends on the history", "anchors": ["accumulators/src/merkle_tree.rs: PersistentMerkleTree::add_commitment_hash", "accumulators/src/merkle_tree.rs: generate_proof", "accumulators/src/merkle_tree.rs: verify", "accumulators/src/merkle_tree.rs: get_path_keys"]}
{"id": "C02", "title": "The Merkle root is a function of the sequence of inserted leaves", "statement": "The root reported after any history of insertions and commits equals the root of the abstract 3-ary tree of depth 20 whose first n leaves are the inserted commitments in order (empty subtrees being zero); when and how often commit was called does not matter, and entry_count is the number of insertions.", "quantifier": "all interleavings of insertions and commits, all hash functions", "why_tests_cant": "needs a refinement argument over all histories; tests compare a handful of roots to each other", "anchors": ["accumulators/src/merkle_tree.rs: add_commitment_hash", "accumulators/src/merkle_tree.rs: get_root", "accumulators/src/merkle_tree.rs: commit", "accumulators/src/merkle_tree.rs: get_path_keys"]}
{"id": "C03", "title": "A membership proof binds position and leaf up to a hash collision", "statement": "If verify accepts a leaf with a 20-node path against the root of a tree, then either the position described by the path holds that leaf in the tree or an explicit collision (or zero-preimage) of the compression function can be read off the proof and the tree.", "quantifier": "all trees, all (possibly adversarial) leaves, paths and sibling values", "why_tests_cant": "soundness against arbitrary adversarial proofs cannot be sampled", "anchors": ["accumulators/src/merkle_tree.rs: verify", "accumulators/src/merkle_tree.rs: struct Proof", "accumulators/src/merkle_tree.rs: struct ProofNode"]}
{"id": "C04", "title": "Reopening a Merkle tree recovers the last committed state, whatever the crash point", "statement": "Dropping the in-memory tree at any point and calling PersistentMerkleTree::new on the same committed store yields a tree with the root, entry_count and proofs of the last commit; insertions after the last commit have no effect, and continuing from the reopened tree behaves as if they never happened.", "quantifier": "all histories of insertions and commits and every crash point in them", "why_tests_cant": "crash points and histories are unbounded", "anchors": ["accumulators/src/merkle_tree.rs: PersistentMerkleTree::new", "accumulators/src/merkle_tree.rs: commit", "accumulators/src/merkle_tree.rs: add_commitment_hash"]}
{"id": "C05", "title": "Historical versions of the tree are immutable", "statement": "The root returned for an already committed version is the root at the time of that commit and is not changed by any later insertion or commit; an ImmutablePersistentMerkleTree opened at that version reports that root.", "quantifier": "all histories, all committed versions", "why_tests_cant": "needs all later histories", "anchors": ["accumulators/src/merkle_tree.rs: get_root_with_depth_and_version", "accumulators/src/merkle_tree.rs: ImmutablePersistentMerkleTree"]}
{"id": "C06", "title": "get_leaf returns the commitment stored at an id", "statement": "get_leaf(id) returns the commitment hash inserted as the id-th leaf for every id below entry_count (and nothing for other ids).", "quantifier": "all histories and ids", "why_tests_cant": "all ids and histories; the tests never call it on a tree with leaves", "anchors": ["accumulators/src/merkle_tree.rs: PersistentMerkleTree::get_leaf"]}
{"id": "C07", "title": "Proofs at a reduced depth verify against the root of that depth", "statement": "When id < 3^depth, generate_proof_with_depth(id, depth) returns a proof of `depth` nodes which verify accepts against get_root_with_depth(depth), for the mutable tree and for the immutable (versioned) tree alike; ids outside the subtree are rejected.", "quantifier": "all histories, ids and depths up to 20", "why_tests_cant": "depth/id/history space is unbounded for tests", "anchors": ["accumulators/src/merkle_tree.rs: generate_proof_with_depth", "accumulators/src/merkle_tree.rs: get_root_with_depth", "accumulators/src/merkle_tree.rs: ImmutablePersistentMerkleTree::generate_proof_with_depth"]}
{"id": "C08", "title": "A full Merkle tree rejects further insertions without corrupting itself", "statement": "When entry_count has reached 3^20, add_commitment_hash leaves every existing membership proof and the root intact (it fails).", "quantifier": "all trees at capacity", "why_tests_cant": "a tree with 3^20 leaves cannot be built in a test", "anchors": ["accumulators/src/merkle_tree.rs: add_commitment_hash", "accumulators/src/merkle_tree.rs: get_path_keys"]}
{"id": "C09", "title": "Non-confidential transfers conserve every asset type", "statement": "Verification of a transfer body with plain amounts and plain types accepts if and only if, for every asset type, the sum of input amounts equals the sum of output amounts as unbounded integers.", "quantifier": "all lists of inputs and outputs with u64 amounts and arbitrary types", "why_tests_cant": "all lists of records; overflow behaviour at u64 boundaries", "anchors": ["api/src/xfr/mod.rs: verify_plain_asset_mix", "api/src/xfr/mod.rs: verify_xfr_body_no_policies"]}
{"id": "C10", "title": "Confidential single-asset transfers never create value", "statement": "If a confidential-amount single-type transfer verifies, then the committed input total minus the committed output total is a non-negative integer below 2^64 and every output amount is below 2^64: no value can be created through the low/high 32-bit limb representation.", "quantifier": "all openings of the commitments in an accepted transfer, any number of records up to the supported bound", "why_tests_cant": "field wrap-around across arbitrary limb values is not reachable by sampling", "anchors": ["api/src/xfr/proofs.rs: gen_range_proof", "api/src/xfr/proofs.rs: batch_verify_confidential_amount", "api/src/xfr/proofs.rs: extract_value_commitments"]}
{"id": "C11", "title": "Confidential single-asset transfers conserve value exactly", "statement": "An accepted confidential-amount transfer has input total equal to output total (nothing is silently burned).", "quantifier": "all openings of accepted confidential transfers", "why_tests_cant": "requires reasoning on what the verifier does not check", "anchors": ["api/src/xfr/proofs.rs: batch_verify_confidential_amount", "api/src/xfr/mod.rs: gen_xfr_body"]}
{"id": "C12", "title": "Transfer kind classification matches the records", "statement": "The transfer kind computed for a set of records is non-confidential iff no record hides amount or type, and multi-type iff not all records share one asset type; the proofs generated and the checks applied by the verifier are those of the kind, and the record flag encoding round-trips.", "quantifier": "all lists of records", "why_tests_cant": "all combinations of flags and types for any number of records", "anchors": ["api/src/xfr/mod.rs: XfrType::from_inputs_outputs", "api/src/xfr/structs.rs: AssetRecordType"]}
{"id": "C13", "title": "Anonymous transfers built by the API balance every asset type and pay the fee", "statement": "If building an anonymous transfer note passes the balance check, then for each asset type the input total equals the output total, except for the fee asset type where inputs equal outputs plus the fee.", "quantifier": "all lists of opened records and fees", "why_tests_cant": "all lists of records", "anchors": ["api/src/anon_xfr/mod.rs: check_asset_amount", "api/src/anon_xfr/abar_to_abar.rs: init_anon_xfr_note"]}
{"id": "C14", "title": "The anonymous-transfer circuit enforces conservation for every witness", "statement": "Any assignment satisfying the asset-mixing constraints, with amounts below 2^64, conserves every non-fee asset type exactly, pays exactly the fee in the fee type, and gives every output an input type; no assignment can create value by field wrap-around.", "quantifier": "all witnesses, all numbers of inputs and outputs (below the wrap bound), all fees below 2^64", "why_tests_cant": "circuit soundness ranges over all witnesses in a 255-bit field", "anchors": ["api/src/anon_xfr/abar_to_abar.rs: asset_mixing", "api/src/anon_xfr/abar_to_abar.rs: match_select"]}
{"id": "C15", "title": "Every balanced anonymous transfer the builder accepts can be proved", "statement": "If the builder's balance check accepts the records and fee, the honest assignment satisfies the asset-mixing constraints.", "quantifier": "all balanced lists of records", "why_tests_cant": "all lists of records", "anchors": ["api/src/anon_xfr/abar_to_abar.rs: asset_mixing", "api/src/anon_xfr/mod.rs: check_asset_amount"]}
{"id": "C16", "title": "One note cannot spend the same record twice", "statement": "A note whose inputs contain the same record twice is rejected by the note builder, the circuit, or the note verifier.", "quantifier": "all notes", "why_tests_cant": "absence of a check is invisible to positive tests", "anchors": ["api/src/anon_xfr/abar_to_abar.rs: init_anon_xfr_note", "api/src/anon_xfr/abar_to_abar.rs: verify_anon_xfr_note", "api/src/anon_xfr/mod.rs: check_inputs"]}
{"id": "C17", "title": "The confidential multi-asset mix conserves every asset type (two or more records on each side, same counts)", "statement": "For at least two inputs, at least two outputs and equal counts, any assignment satisfying the mix constraint system for all verifier challenges has, for each asset type, equal input and output totals, and all amounts are 64-bit.", "quantifier": "all witnesses, all lengths at least two", "why_tests_cant": "soundness over all field assignments", "anchors": ["crypto/src/bulletproofs/mix.rs: mix", "crypto/src/bulletproofs/mix.rs: mix_merge_or_not_gadget", "crypto/src/bulletproofs/mix.rs: mix_shuffle_gadget"]}
{"id": "C18", "title": "The confidential multi-asset mix conserves every asset type for every number of records", "statement": "The conservation guarantee of the mix proof holds for all numbers of inputs and outputs, including one record on a side and different counts.", "quantifier": "all witnesses, all lengths", "why_tests_cant": "soundness over adversarial witnesses, not only honest provers", "anchors": ["crypto/src/bulletproofs/mix.rs: sort_and_merge", "crypto/src/bulletproofs/mix.rs: pad", "crypto/src/bulletproofs/mix.rs: mix"]}
{"id": "C19", "title": "Honest multi-asset mixes satisfy the mix constraints", "statement": "Sorting groups equal types together and preserves the multiset, merging preserves per-type totals, and the values the prover computes satisfy the merge and shuffle constraints for every challenge.", "quantifier": "all balanced lists of (amount, type) pairs", "why_tests_cant": "all list shapes and orders", "anchors": ["crypto/src/bulletproofs/mix.rs: sort", "crypto/src/bulletproofs/mix.rs: merge", "crypto/src/bulletproofs/mix.rs: sort_and_merge"]}
{"id": "C20", "title": "A KZG opening proof is accepted exactly for the right value", "statement": "For a commitment to a polynomial f, the honest opening at a point verifies with value f(point), and for a commitment with known representation an opening with another value verifies only if the prover solves for the setup secret.", "quantifier": "all polynomials, points and values", "why_tests_cant": "all degrees and field elements", "anchors": ["plonk/src/poly_commit/kzg_poly_com.rs: prove", "plonk/src/poly_commit/kzg_poly_com.rs: verify"]}
{"id": "C21", "title": "The batched two-point opening check binds the opened values", "statement": "Batched opening verification at two points accepts only if each of the two individual openings verifies (except with negligible probability over the separation challenge).", "quantifier": "all adversarial witnesses chosen after all challenges are known", "why_tests_cant": "adversarial proofs", "anchors": ["plonk/src/poly_commit/pcs.rs: batch_verify_diff_points", "plonk/src/plonk/verifier.rs: verifier", "plonk/src/plonk/prover.rs: prover_with_lagrange"]}
{"id": "C22", "title": "The PLONK verifier accepts honest proofs: linearisation agrees with the quotient identity", "statement": "For every circuit and witness satisfying gates, copy constraints and boolean constraints, the quotient division is exact and the verifier's linearisation identity holds at every evaluation point; if the identity holds at enough points, the witness satisfies the constraints.", "quantifier": "all circuits, witnesses, challenges and evaluation points", "why_tests_cant": "all circuits and challenges", "anchors": ["plonk/src/plonk/helpers.rs: t_poly", "plonk/src/plonk/helpers.rs: r_poly_or_comm", "plonk/src/plonk/helpers.rs: r_eval_zeta", "plonk/src/plonk/verifier.rs: verifier"]}
{"id": "C23", "title": "The scalar-multiplication proof pins the public key to the secret key", "statement": "A satisfied scalar-multiplication constraint system implies that the committed point is secret*generator.", "quantifier": "all witnesses", "why_tests_cant": "adversarial witnesses", "anchors": ["crypto/src/bulletproofs/scalar_mul.rs: ScalarMulProof", "crypto/src/bulletproofs/scalar_mul.rs: PointVar / point_add_constant"]}
{"id": "C24", "title": "Anonymous credentials: honest issuance, commitment and selective disclosure verify", "statement": "A credential granted by an issuer on any attributes to any user key, committed with any randomness, and opened with any reveal map is accepted by the verifier holding the revealed attributes.", "quantifier": "all keys, attributes, reveal maps and randomness", "why_tests_cant": "all numbers of attributes and reveal maps", "anchors": ["crypto/src/anon_creds.rs: grant_credential", "crypto/src/anon_creds.rs: commit_without_randomizer / open_comm / verify_open"]}
{"id": "C25", "title": "Anonymous credentials: an accepted disclosure comes from an issued credential with those attributes", "statement": "A disclosure accepted by the verifier implies possession of an issuer signature on attributes agreeing with the disclosed ones.", "quantifier": "all adversarial commitments, proofs and claimed attribute lists", "why_tests_cant": "adversarial inputs", "anchors": ["crypto/src/anon_creds.rs: verify_open", "crypto/src/anon_creds.rs: verify_pok", "crypto/src/anon_creds.rs: CredentialComm"]}
{"id": "C26", "title": "Confidential disclosure of credential attributes is consistent with the ciphertext", "statement": "An honest confidential disclosure is accepted, and decrypting an accepted ciphertext with the receiver key yields the disclosed attribute encodings; ciphertext counts that do not match the reveal map are rejected.", "quantifier": "all keys, attributes, reveal maps", "why_tests_cant": "all lengths and keys", "anchors": ["crypto/src/confidential_anon_creds.rs: confidential_open_comm", "crypto/src/confidential_anon_creds.rs: confidential_verify_open"]}
{"id": "C27", "title": "Linear sigma protocol: completeness and special soundness", "statement": "For every linear relation given by index matrices, honest proofs verify, and two accepting transcripts with the same commitments and different challenges determine witnesses of the relation.", "quantifier": "all matrices, elements, witnesses and challenges", "why_tests_cant": "all matrix shapes and field elements", "anchors": ["crypto/src/basic/matrix_sigma.rs: sigma_prove", "crypto/src/basic/matrix_sigma.rs: sigma_verify", "crypto/src/basic/matrix_sigma.rs: sigma_verify_scalars"]}
{"id": "C28", "title": "Pedersen/ElGamal equality proofs tie the ciphertext to the commitment", "statement": "An honest equality proof verifies (single, aggregated and batched), and two accepting transcripts with distinct challenges give one message and one blinding that open both the ciphertext and the commitment.", "quantifier": "all messages, randomness, keys, batches", "why_tests_cant": "all batch sizes and field elements", "anchors": ["crypto/src/basic/pedersen_elgamal.rs"]}
{"id": "C29", "title": "Chaum-Pedersen equality proofs tie commitments to one value", "statement": "An honest proof that k commitments hide the same value verifies for every k >= 2, and special soundness yields one common value; fewer than two commitments are refused without panicking.", "quantifier": "all lists of commitments", "why_tests_cant": "all lengths and field elements", "anchors": ["crypto/src/basic/chaum_pedersen.rs"]}
{"id": "C30", "title": "Delegated Schnorr proofs: completeness and extraction of the inspected values", "statement": "Honest delegated proofs verify; accepting transcripts with two challenges determine the committed pairs; malformed proofs are rejected without panicking.", "quantifier": "all vectors of committed pairs and challenges", "why_tests_cant": "all lengths and field elements", "anchors": ["crypto/src/delegated_schnorr.rs"]}
{"id": "C31", "title": "Multi-exponentiation computes the sum of scalar multiples", "statement": "The default multi-exponentiation returns sum s_i*P_i for all scalars and points, for every number of terms.", "quantifier": "all lists of scalars and group elements", "why_tests_cant": "all lengths and all scalars", "anchors": ["algebra/src/traits.rs: Group::multi_exp", "algebra/src/traits.rs: pippenger", "algebra/src/traits.rs: scalar_to_radix_2_power_w"]}
{"id": "C32", "title": "The bucketed MSM of BLS12-381 G1 computes the sum of scalar multiples", "statement": "msm_unsafe returns sum s_i*P_i for all lists of scalars below the group order and points (truncated to the shorter list).", "quantifier": "all lists", "why_tests_cant": "all lengths and scalars; the window size changes with the length", "anchors": ["algebra/src/bls12_381.rs: msm_unsafe", "algebra/src/bls12_381.rs: reduce_buckets"]}
{"id": "C33", "title": "The range-check gadget accepts exactly the values below 2^n", "statement": "For every bit length n >= 2, a witness of the range-check constraints exists for a value iff the value is below 2^n, and in every witness the returned bits are the value's binary representation (when 2^n does not exceed the field size; for longer lengths they represent a number congruent to it).", "quantifier": "all bit lengths and field elements", "why_tests_cant": "all field elements", "anchors": ["plonk/src/plonk/constraint_system/turbo.rs: range_check"]}
{"id": "C34", "title": "Selection, equality and boolean gadgets compute their function", "statement": "Every satisfying assignment of the select, is_equal, equality-with-constant, addition, multiplication and linear-combination gadgets gives the output its specified value, and every input admits a satisfying assignment.", "quantifier": "all field elements and gate placements", "why_tests_cant": "all witnesses", "anchors": ["plonk/src/plonk/constraint_system/turbo.rs: select", "plonk/src/plonk/constraint_system/turbo.rs: is_equal", "plonk/src/plonk/constraint_system/turbo.rs: linear_combine", "plonk/src/plonk/constraint_system/turbo.rs: insert_boolean_gate"]}
{"id": "C35", "title": "The secret-key comparator accepts exactly the canonical keys", "statement": "The in-circuit comparison of a bit string with the curve order accepts iff the bit string encodes a number smaller than the order.", "quantifier": "all bit strings and moduli", "why_tests_cant": "2^256 bit strings", "anchors": ["api/src/anon_xfr/address_folding.rs: prove_address_folding_in_cs"]}
{"id": "C36", "title": "Copy-constraint permutation encodes exactly wire equality", "statement": "The permutation computed for the constraint system is a bijection on wire positions whose cycles are exactly the classes of positions carrying the same variable.", "quantifier": "all wirings", "why_tests_cant": "all circuits", "anchors": ["plonk/src/plonk/constraint_system/mod.rs: compute_permutation"]}
{"id": "C37", "title": "Padding a circuit does not change which witnesses satisfy it", "statement": "pad grows the circuit to the next power of two without changing the set of satisfying witnesses, and witness verification accepts iff every gate equation holds.", "quantifier": "all circuits and witnesses", "why_tests_cant": "all circuits", "anchors": ["plonk/src/plonk/constraint_system/turbo.rs: pad", "plonk/src/plonk/constraint_system/turbo.rs: verify_witness"]}
{"id": "C38", "title": "In-circuit Jubjub point operations compute the group operation", "statement": "Satisfying assignments of the point-addition, selection and fixed-base scalar multiplication gadgets give the twisted-Edwards sum and the scalar multiple of the base by the bit string.", "quantifier": "all points and bit strings", "why_tests_cant": "all witnesses", "anchors": ["plonk/src/plonk/constraint_system/ecc.rs: ecc_add", "plonk/src/plonk/constraint_system/ecc.rs: scalar_mul_with_bases", "plonk/src/plonk/constraint_system/ecc.rs: compute_base_multiples"]}
{"id": "C39", "title": "The in-circuit hash equals the native hash", "statement": "The unique satisfying assignment of the Rescue gadget outputs the native Rescue hash of its input values.", "quantifier": "all inputs", "why_tests_cant": "all field elements", "anchors": ["plonk/src/plonk/constraint_system/rescue.rs: rescue_hash", "crypto/src/basic/rescue.rs: RescueInstance::rescue"]}
{"id": "C40", "title": "Rescue is a permutation and its round-key forms agree", "statement": "The Rescue hash, which derives its round keys online, equals the textbook permutation keyed by the precomputed schedule of the zero key; for every key that permutation is a bijection of the four-element states, so every state has exactly one preimage; inputs of any other length panic.", "quantifier": "all states and keys", "why_tests_cant": "all field elements", "anchors": ["crypto/src/basic/rescue.rs: RescueInstance::rescue", "crypto/src/basic/rescue.rs: RescueInstance::key_scheduling"]}
{"id": "C41", "title": "Anemoi-Jive evaluation agrees with its trace", "statement": "The output recorded in the trace equals the plain hash, the recorded states satisfy the low-degree flow relation a circuit would check, and no other trace with the same input does.", "quantifier": "all inputs", "why_tests_cant": "all field elements", "anchors": ["crypto/src/basic/jive.rs: JiveCRH::eval", "crypto/src/basic/jive.rs: JiveCRH::eval_with_trace"]}
{"id": "C42", "title": "Limb arithmetic simulates the foreign field", "statement": "Conversions between integers and limbs round-trip, simulated subtraction and multiplication compute the field operation modulo the simulated prime, and the zero check of the circuit accepts only multiples of the modulus, without limb overflow within the surfeit budget.", "quantifier": "all field elements and surfeits", "why_tests_cant": "all limb values", "anchors": ["crypto/src/field_simulation.rs", "plonk/src/plonk/constraint_system/field_simulation/fr_var.rs", "plonk/src/plonk/constraint_system/field_simulation/fr_mul_var.rs"]}
{"id": "C43", "title": "Polynomial arithmetic is the ring of polynomials", "statement": "Addition, subtraction, negation, scaling, substitution of s*X for X, single-coefficient updates and building from zeroes act on the coefficients as the ring of polynomials prescribes; evaluation is compatible with them; division returns the unique q, r with f = q*g + r and deg r < deg g, for every dividend and divisor.", "quantifier": "all polynomials", "why_tests_cant": "all degrees and coefficients", "anchors": ["plonk/src/poly_commit/field_polynomial.rs: FpPolynomial"]}
{"id": "C44", "title": "FFT and inverse FFT are evaluation and interpolation", "statement": "The FFT returns the evaluations at the powers of the root of unity in order, and the inverse FFT recovers the coefficients, for every supported domain size.", "quantifier": "all polynomials, all sizes 2^k and 3*2^k", "why_tests_cant": "all sizes", "anchors": ["plonk/src/poly_commit/field_polynomial.rs: fft / ifft / recursive_fft"]}
{"id": "C45", "title": "Owner memos round-trip and reject malformed plaintexts", "statement": "Opening an anonymous record with the right key recovers exactly the amount, type and blinding it was built with; memo plaintexts of any other length are rejected.", "quantifier": "all amounts, types, blinds, keys", "why_tests_cant": "all 2^64 amounts and 32-byte strings", "anchors": ["api/src/anon_xfr/mod.rs: parse_memo", "api/src/anon_xfr/mod.rs: decrypt_memo", "api/src/anon_xfr/structs.rs: OpenAnonAssetRecordBuilder"]}
{"id": "C46", "title": "Encryption round-trips", "statement": "ElGamal decryption of an encryption returns the encoded message; hybrid encryption decrypts to the plaintext with the matching key and different nonce-free streams never alter length.", "quantifier": "all messages, keys and randomness", "why_tests_cant": "all messages", "anchors": ["crypto/src/basic/elgamal.rs", "crypto/src/basic/hybrid_encryption.rs"]}
{"id": "C47", "title": "Transfer key and signature encodings round-trip and are canonical", "statement": "Decoding an encoded public key, secret key or signature gives back the same value for every key type, and no two distinct accepted byte strings decode to the same value.", "quantifier": "all keys and byte strings", "why_tests_cant": "all byte strings", "anchors": ["api/src/xfr/sig.rs: XfrPublicKey::from_bytes / to_bytes", "api/src/xfr/sig.rs: XfrSignature", "api/src/xfr/sig.rs: KeyType"]}
{"id": "C48", "title": "Multi-signatures accept exactly the full set of signers in any order", "statement": "A multi-signature made by a list of key pairs verifies for any ordering of the corresponding public keys and any acceptance means each listed key signed the message; missing or extra keys are rejected.", "quantifier": "all lists of keys", "why_tests_cant": "all orders and lengths", "anchors": ["api/src/xfr/sig.rs: XfrMultiSig"]}
{"id": "C49", "title": "Batch verification accepts exactly when every member verifies", "statement": "Batch verification of notes accepts iff the vectors have equal length and each note verifies individually.", "quantifier": "all batches, including mismatched lengths", "why_tests_cant": "adversarial batch shapes", "anchors": ["api/src/anon_xfr/abar_to_abar.rs: batch_verify_anon_xfr_note", "api/src/anon_xfr/abar_to_ar.rs: batch_verify_abar_to_ar_note", "api/src/anon_xfr/abar_to_bar.rs", "api/src/anon_xfr/bar_to_abar.rs"]}
{"id": "C50", "title": "Tracing authorities recover what was traced", "statement": "The owner of a tracing key finds and decrypts the amount and type of every record traced under the policy in an accepted transfer.", "quantifier": "all accepted transfers and policies", "why_tests_cant": "adversarial memos", "anchors": ["api/src/xfr/asset_tracer.rs", "api/src/xfr/mod.rs: find_tracing_memos", "api/src/xfr/mod.rs: trace_assets"]}
{"id": "C51", "title": "Blind asset records open to what was built", "statement": "Opening a blind asset record with the owner's memo and key returns the amount, type and blindings used to build it, for all four confidentiality types.", "quantifier": "all amounts, types, keys", "why_tests_cant": "all values", "anchors": ["api/src/xfr/asset_record.rs: build_blind_asset_record", "api/src/xfr/asset_record.rs: open_blind_asset_record"]}
{"id": "C52", "title": "Commitment and nullifier preimages are injective encodings", "statement": "The field-element packings hashed into commitments and nullifiers are injective: two records (amount, type, blind, key, position) with the same packed inputs are the same record, so equal commitments or nullifiers mean a hash collision or the same record.", "quantifier": "all records, keys and positions", "why_tests_cant": "all values", "anchors": ["api/src/anon_xfr/mod.rs: commit", "api/src/anon_xfr/mod.rs: nullify", "api/src/anon_xfr/keys.rs: get_public_key_scalars / get_secret_key_scalars"]}
{"id": "C53", "title": "Byte and integer helper conversions are exact", "statement": "Big/little-endian conversions, bit shifting and power-of-two rounding return the mathematically specified value on their whole domain.", "quantifier": "all byte strings and integers", "why_tests_cant": "all inputs", "anchors": ["algebra/src/utils.rs"]}
{"id": "C54", "title": "Field elements can be created from every big integer and every encoding decodes to one element", "statement": "Creating a scalar from any big integer returns that integer modulo the field size and never panics, and scalar decoding is injective.", "quantifier": "all integers and byte strings", "why_tests_cant": "all inputs; the failing inputs are exponentially rare among random ones", "anchors": ["algebra/src/ristretto.rs: From<&BigUint> for RistrettoScalar", "algebra/src/bls12_381.rs: from_bytes"]}
{"id": "C55", "title": "Splitting the quotient polynomial loses nothing", "statement": "The split and re-randomised chunks of the quotient polynomial recombine to it at every point, and hiding polynomials do not change values on the evaluation domain.", "quantifier": "all polynomials, blinds and points", "why_tests_cant": "all polynomials", "anchors": ["plonk/src/plonk/helpers.rs: split_t_and_commit", "plonk/src/plonk/helpers.rs: hide_polynomial"]}
{"id": "C56", "title": "Shielding and unshielding notes bind amount, type and owner", "statement": "A note moving a transparent record into or out of the anonymous pool is accepted only if the public amount and type are the record's, confidential records are refused, and the transparent owner's signature covers the whole body.", "quantifier": "all notes", "why_tests_cant": "adversarial notes", "anchors": ["api/src/anon_xfr/ar_to_abar.rs", "api/src/anon_xfr/abar_to_ar.rs"]}
{"id": "C57", "title": "Honest confidential transfers verify", "statement": "A transfer body built by gen_xfr_body from honestly opened records (any combination of hidden and plain amounts and types, at least one output) is accepted by batch_verify_xfr_body_asset_records, given that the underlying range, equality and mix provers produce accepted proofs for true statements.", "quantifier": "all lists of consistent open asset records, all blindings", "why_tests_cant": "Holds for every combination of confidentiality flags, amounts, limb splits, paddings and blindings; tests sample a few.", "anchors": ["api/src/xfr/mod.rs:gen_xfr_body", "api/src/xfr/mod.rs:batch_verify_xfr_body_asset_records", "api/src/xfr/proofs.rs:gen_range_proof", "api/src/xfr/proofs.rs:extract_value_commitments"]}
{"id": "C58", "title": "An accepted anonymous-transfer proof describes a real transfer, and every honest transfer can be proved", "statement": "Any assignment satisfying the anonymous-transfer constraint system has as public inputs the nullifiers of records authenticated under the published tree root and owned by one key, the commitments of the created records, and the fee, with 64-bit amounts and every asset type conserved; conversely the assignment of any transfer accepted by the note builder, with genuine inputs, satisfies the system and has the public inputs the verifier computes.", "quantifier": "all assignments, all numbers of inputs and outputs, all tree depths, all keys", "why_tests_cant": "Soundness ranges over every assignment of a large circuit; completeness over all records, paths and amounts.", "anchors": ["api/src/anon_xfr/abar_to_abar.rs:build_multi_xfr_cs", "api/src/anon_xfr/abar_to_abar.rs:init_anon_xfr_note", "api/src/anon_xfr/mod.rs:compute_merkle_root_variables", "api/src/anon_xfr/mod.rs:commit_in_cs", "api/src/anon_xfr/mod.rs:nullify_in_cs"]}
{"id": "C59", "title": "Ethereum recovery values map to the parity they encode", "statement": "The recovery byte computed from an Ethereum signature's v value is the parity for 27/28, for every EIP-155 chain id and for raw parities, is always a byte, and is a valid recovery id only for those values (and the raw ids 2 and 3).", "quantifier": "all 64-bit v values and chain ids", "why_tests_cant": "2^64 inputs", "anchors": ["api/src/xfr/sig.rs: recovery_id_from_u64"]}
{"id": "C60", "title": "The challenges of the non-interactive proofs bind statement and first message", "statement": "The verdict of each sigma-protocol verifier (plain sigma proofs, ciphertext/commitment equality, equality of many commitments, delegated Schnorr), of the credential verifiers and of the PLONK verifier depends on the random oracle only at points from which the earlier transcript, the complete public statement (keys, every ciphertext, every commitment, the inspector's commitment) and the prover's first message can be read back; in particular no public component can be changed after the challenge is known.", "quantifier": "all oracles, transcripts, statements and proofs, any number of ciphertexts and commitments", "why_tests_cant": "A component left out of the transcript is invisible in honest runs; only the injectivity of the hashed data over all statements shows it is bound.", "anchors": ["crypto/src/basic/matrix_sigma.rs: sigma_verify", "crypto/src/basic/pedersen_elgamal.rs: pedersen_elgamal_aggregate_eq_verify", "crypto/src/basic/chaum_pedersen.rs: chaum_pedersen_verify_multiple_eq", "crypto/src/delegated_schnorr.rs: verify_delegated_schnorr", "crypto/src/confidential_anon_creds.rs: cac_init", "crypto/src/anon_creds.rs: init_pok_transcript", "plonk/src/plonk/transcript.rs: transcript_init_plonk", "plonk/src/plonk/verifier.rs: compute_challenges"]}
{"id": "C61", "title": "Limbs and powers of scalars are exact", "statement": "Reading the 64-bit limbs of a scalar returns limbs whose number is the scalar, in every scalar field, and raising a scalar to an exponent given by limbs returns the power modulo the field size.", "quantifier": "all five scalar fields, all scalars, all exponents of any length", "why_tests_cant": "all scalars and exponent lengths; the limb function of one field panics on every input but is reached only through generic code", "anchors": ["algebra/src/traits.rs: Scalar::pow", "algebra/src/secp256k1.rs: get_little_endian_u64, pow", "algebra/src/secq256k1.rs: get_little_endian_u64, pow", "algebra/src/bls12_381.rs: get_little_endian_u64, pow"]}
{"id": "C62", "title": "Address folding ties a transfer's keys to the inspected commitment", "statement": "An accepted folding proof inside a transfer, unshielding or mixed transfer means that the public key and secret key used by the rest of the circuit are exactly the coordinates and secret scalar committed in the inspection commitment and satisfy the delegated verification equation for the published responses and challenges; one commitment cannot be opened to two different keys without a hash collision; enough accepted challenges determine the keys; and the prover that owns a key below the curve order never panics and is always accepted, with exactly the public inputs the verifier prepares.", "quantifier": "all circuits the gadget is added to, all assignments, all coordinates, 32-byte secret keys, randomizers, commitments, responses and challenges", "why_tests_cant": "soundness ranges over all satisfying assignments of a circuit with thousands of variables over a 255-bit field, and over all challenges; the unit tests run the prover once", "anchors": ["api/src/anon_xfr/address_folding.rs: prove_address_folding_in_cs, prepare_verifier_input, create_address_folding, verify_address_folding", "crypto/src/delegated_schnorr.rs: prove_delegated_schnorr, inspection commitment", "api/src/anon_xfr/abar_to_abar.rs: build_multi_xfr_cs"]}
{"id": "C63", "title": "Parameters made from placeholder witnesses fit every prover", "statement": "The circuit of an anonymous operation (gates, selectors, wires, boolean flags, public positions and number of variables) depends only on its shape: the number of payers and the lengths of their Merkle paths, the number of payees and the fee type, never on amounts, asset types, keys, paths or folding data. So the parameters the setup functions generate from all-zero placeholder witnesses (whose construction never panics) are for exactly the circuit every prover of that shape builds: an honest prover's values satisfy the circuit of the parameters with the verifier's public inputs, and whatever satisfies the circuit of the parameters is an operation of that shape.", "quantifier": "all pairs of witnesses of the same shape, all numbers of payers and payees, all tree depths, all keys and folding witnesses that build", "why_tests_cant": "tests use the parameters with one witness of each of a few shapes; a gate depending on a value (a skipped row for a zero, a constant taken from the witness) passes whenever test values agree", "anchors": ["api/src/setup.rs: ProverParams::new, ar_to_abar_params, abar_to_ar_params, bar_to_abar_params, abar_to_bar_params", "api/src/anon_xfr/abar_to_abar.rs: AXfrWitness::fake, build_multi_xfr_cs", "api/src/anon_xfr/ar_to_abar.rs: build_ar_to_abar_cs", "api/src/anon_xfr/abar_to_ar.rs: build_abar_to_ar_cs", "api/src/anon_xfr/address_folding.rs: AXfrAddressFoldingWitness::default, prove_address_folding_in_cs", "api/src/anon_xfr/bar_to_abar.rs: build_bar_to_abar_cs", "api/src/anon_xfr/abar_to_bar.rs: build_abar_to_bar_cs"]}
{"id": "C64", "title": "Converting between confidential and anonymous records carries the same amount and type", "statement": "An accepted note between a confidential record and an anonymous one (either direction) contains a delegated Schnorr proof that verifies for the amount and type commitments of the confidential record, and the anonymous record's amount (below 2^64) and type (below 2^240) are values whose inspector's state answers that proof; for an anonymous input the nullifier is that of a record in the given tree whose owner's keys are the folded ones. From runs of a prover under two first and two second challenges, the confidential record's commitments open to exactly the amount and type of the anonymous record, or an explicit hash collision results; any other known opening agrees or gives a relation between the Pedersen generators. Honestly opened records can always be converted. Undecodable commitments are errors. (False parts: a malformed proof makes the verifier panic; the halves and the owner of a confidential output are bound only through the caller's hash.)", "quantifier": "all records, notes, challenge oracles, proofs, satisfying assignments and random draws; for soundness, assignments with zero in variable 0", "why_tests_cant": "tests convert a few honest records; a missing constraint between the in-circuit state and the Schnorr responses shows only for a dishonest prover", "anchors": ["api/src/anon_xfr/bar_to_abar.rs: gen_bar_to_abar_body, verify_bar_to_abar, verify_inspection, build_bar_to_abar_cs", "api/src/anon_xfr/abar_to_bar.rs: init_abar_to_bar_note, finish_abar_to_bar_note, verify_abar_to_bar_note, build_abar_to_bar_cs", "crypto/src/delegated_schnorr.rs: prove_delegated_schnorr, verify_delegated_schnorr"]}
{"id": "C65", "title": "Stored, loaded and reduced parameters mean the same as created ones", "statement": "The bytes written for a structured reference string read back to the same string whatever follows them; accepted bytes hold exactly the announced numbers of elements; a file cut short is an error while the counts are missing and a panic afterwards. Lagrange-form parameters written for a size are the ones loaded for it, and an absent file or an undecodable element means none. Using Lagrange-form parameters gives the same preprocessed parameters and, for every witness, random tape and transcript, the same proof. Reducing verifier parameters changes the verdict on no proof, works on every setup, and the reduced constraint system is refused by the prover. For every supported number of inputs and outputs the parameters loaded from the generated files give the same verdicts as parameters created on the spot; above six inputs or outputs loading is an error, and zero is a panic.", "quantifier": "all reference strings with fewer than 2^32 elements, trailing bytes, cut points and byte strings; all circuits, witnesses, random tapes, transcripts, public inputs and proofs; all input and output counts", "why_tests_cant": "tests serialize one or two parameter sets and verify one honest proof; a verdict that differs only for some dishonest proof, or only for one pair of counts, is not seen", "anchors": ["plonk/src/poly_commit/kzg_poly_com.rs: to_unchecked_bytes, from_unchecked_bytes, shrink_to_verifier_only", "api/src/setup.rs: load_lagrange_params, ProverParams::new, VerifierParams::{create,load,shrink,split,abar_to_bar_params,bar_to_abar_params,ar_to_abar_params,abar_to_ar_params}", "api/src/gen-params.rs: gen_transfer_vk, gen_abar_to_bar_vk", "plonk/src/plonk/prover.rs: prover_with_lagrange", "plonk/src/plonk/indexer.rs: indexer_with_lagrange"]}
{"id": "C66", "title": "Honest anonymous operations are accepted end to end", "statement": "Whoever owns the records (with honest folding data for the key) and asks for a transfer, a shielding, an unshielding or a conversion between a confidential and an anonymous record that the builders allow gets a note the verifier accepts: the circuit of the parameters exists, the prover's parameters are made from the embedded reference string (and the Lagrange bases, if any), the proof made with them for the prover's own circuit is accepted by the note verifier, for every random tape and transcript, whether the verifier's parameters were created on the spot or loaded from the generated files. The only way out is a prover panic when a challenge hits a denominator of the permutation product. No step assumes that the proof system is complete.", "quantifier": "all keys, records, paths, amounts, types, fees, numbers of inputs and outputs, tree depths, random tapes, transcripts, hash functions, folding instances, reference strings with trailing bytes and embedded Lagrange bases from the same secret", "why_tests_cant": "integration tests run a few fixed shapes with one seed; an operation that is refused only for some amounts, paths, counts or parameters from files would not be seen", "anchors": ["api/src/anon_xfr/abar_to_abar.rs: gen_anon_xfr_note, verify_anon_xfr_note", "api/src/anon_xfr/ar_to_abar.rs, abar_to_ar.rs, bar_to_abar.rs, abar_to_bar.rs", "api/src/setup.rs: ProverParams, VerifierParams::load, create", "plonk/src/plonk/{indexer,prover,verifier}.rs"]}
{"id": "C67", "title": "Text and byte encodings of keys, points, ciphertexts and amounts round-trip and are exact", "statement": "Every scalar, point, key, signature, ciphertext and asset type is decoded from its bytes, and read back from what JSON (base64url text) and MessagePack (byte string) carry for it; different objects are written differently. The text is the base64url text of the bytes, and a text that is read is the text of what was read up to missing padding. Amounts are decimal texts; exactly the numerals below 2^64 (leading zeros and one plus sign allowed) are read. Each decoder accepts exactly the strings listed, and never panics on others. (False for Ristretto points, compressed Curve25519 points and ElGamal ciphertexts: every string of another length makes decoding, also from JSON, panic. Trailing bytes are ignored for arkworks points and bare X25519 keys; an anonymous key pair is accepted whatever its public key.)", "quantifier": "all objects, byte strings, texts and values of the two formats", "why_tests_cant": "the unit tests encode one object of each type; wrong lengths, padding variants, unused bits and trailing bytes are not tried", "anchors": ["algebra/src/serialization.rs: ZeiFromToBytes, zei_obj_serde", "algebra/src/utils.rs: b64enc, b64dec", "algebra/src/lib.rs: serialize_deserialize!", "api/src/serialization.rs", "crypto/src/basic/hybrid_encryption.rs", "crypto/src/basic/elgamal.rs", "api/src/anon_xfr/keys.rs"]}
{"id": "C68", "title": "Owner memos written by this and by earlier versions are read back", "statement": "Every owner memo is read back from what JSON and MessagePack carry for it, as a map or as a sequence. A map is read as a memo exactly when it has one share, one lock and at most one key type, each in its current or earlier form, in any order and nothing else. Memos of earlier versions (compressed point, hybrid ciphertext, no key type) become Ed25519 memos whose lock is the encoding of the same ciphertext. (As a sequence, the memos of earlier versions are refused; a share of another length than 32 bytes in the earlier form panics. Nothing else panics.)", "quantifier": "all memos, all maps and sequences in both formats, all field orders", "why_tests_cant": "one stored transaction of an earlier version is tested, in JSON, with fields in one order", "anchors": ["api/src/xfr/structs.rs: OwnerMemo, CompatibleKeyType, CompatibleBlindShare, CompatibleLock"]}
{"id": "C69", "title": "The signed bytes of a transfer determine its body, and stored notes are read back", "statement": "The MessagePack bytes that the owners of the inputs sign belong to one transfer body only: amounts, asset types, owners, proofs, tracer memos and owner memos of inputs and outputs are all fixed by them, so an accepted note carries for every input owner a signature that covers the whole body. What the owners sign is accepted. A note is read back from its MessagePack bytes and from the JSON value written for it, and different notes are stored differently. No value's MessagePack bytes begin another value's.", "quantifier": "all bodies and notes (any numbers of inputs, outputs, tracers, attributes, any proofs) and all values of the serde data model MessagePack can carry", "why_tests_cant": "the tests verify signatures of bodies they made and reload one note; that no two different bodies share the signed bytes is a statement about all pairs", "anchors": ["api/src/xfr/mod.rs: compute_transfer_multisig, verify_transfer_multisig", "api/src/xfr/structs.rs: XfrNote, XfrBody, BlindAssetRecord, XfrAmount, XfrAssetType, XfrProofs, TracerMemo", "crypto/src/basic/{chaum_pedersen,pedersen_elgamal,elgamal,hybrid_encryption}.rs", "crypto/src/{anon_creds,confidential_anon_creds}.rs"]}
{"id": "C70", "title": "No history of anonymous notes pays out more than was paid in", "statement": "Take any sequence of shielding notes, anonymous transfers and unshielding notes that the verifiers accept, each for a root the tree of record commitments had at some earlier point, and with no nullifier published twice. For every asset type, the amounts unshielded plus the fees never exceed the amounts shielded; every spend consumes a record created earlier, of the same owner, type and amount, and no record is consumed twice; what is not paid out is held by the records left. (False when one public key can be used with two secret keys, which the circuits allow, see C23: then a record is spent twice under two nullifiers.)", "quantifier": "all histories of any length, all interleavings of the three kinds of notes, all numbers of inputs and outputs, all asset types, all earlier roots", "why_tests_cant": "The claim is about whole histories: it combines soundness of three circuits, the Merkle tree at every earlier moment and the uniqueness of nullifiers; a test only runs the few histories it writes down, all honest.", "anchors": ["api/src/anon_xfr/abar_to_abar.rs: verify_anon_xfr_note", "api/src/anon_xfr/ar_to_abar.rs: verify_ar_to_abar_note", "api/src/anon_xfr/abar_to_ar.rs: verify_abar_to_ar_note", "api/src/anon_xfr/mod.rs: nullify, commit", "accumulators/src/merkle_tree.rs: PersistentMerkleTree"]}
{"id": "C71", "title": "Converting between confidential and anonymous records creates no value", "statement": "Take any sequence of shielding notes, anonymous transfers, unshielding notes, conversions of confidential records to anonymous ones and conversions back, all accepted by the verifiers, each spend for a root the tree had at some earlier point and no nullifier published twice. Whatever amounts and types anybody knows the confidential records to hold, for every asset type the amounts that left the anonymous pool (transparently, as confidential records or as fees) never exceed the amounts that entered it, unless the hash or the commitments are broken on values that can be computed from the provers' responses.", "quantifier": "all sequences of any length of the five kinds of notes in any order, all openings of the confidential records, all rewound runs of the provers, all asset types", "why_tests_cant": "A test converts one honest record and back. The claim is about every accepted ledger and every proof a cheating prover can make in two different fields, tied together by a delegated Schnorr proof.", "anchors": ["api/src/anon_xfr/bar_to_abar.rs: verify_bar_to_abar_note", "api/src/anon_xfr/abar_to_bar.rs: verify_abar_to_bar_note", "crypto/src/delegated_schnorr.rs: verify_delegated_schnorr", "api/src/anon_xfr/abar_to_abar.rs: verify_anon_xfr_note", "accumulators/src/merkle_tree.rs: PersistentMerkleTree"]}
{"id": "C72", "title": "The records behind an accepted anonymous note are determined by positions in its proof's assignment", "statement": "For every assignment that satisfies the circuit of shielding, unshielding, transferring or converting, the spent records with their tree paths, the created records and the owner's public and secret key are the values at positions that depend only on the numbers of records and the tree depth; the published commitments, nullifiers, root, amounts and fee are those of exactly these records, the transfer among them balances, and the inspection and key folding are about these amounts, types and keys. Hence extractors for the proof system turn any ledger of accepted notes into one explicit history, and unless the hash fails on inputs of this very history, no more leaves the anonymous pool than entered it.", "quantifier": "all satisfying assignments of the circuits for every number of inputs, outputs and tree depth; all extractors; all ledgers of accepted notes of any length", "why_tests_cant": "A test sees assignments computed by the honest prover; the claim is about every satisfying assignment, including malicious ones, and about ledgers of unbounded length.", "anchors": ["api/src/anon_xfr/abar_to_abar.rs: build_multi_xfr_cs, add_payers_witnesses, add_payees_witnesses", "api/src/anon_xfr/ar_to_abar.rs: build_ar_to_abar_cs", "api/src/anon_xfr/abar_to_ar.rs: build_abar_to_ar_cs", "api/src/anon_xfr/bar_to_abar.rs: build_bar_to_abar_cs", "api/src/anon_xfr/abar_to_bar.rs: build_abar_to_bar_cs"]}
{"id": "C73", "title": "No history of transparent and confidential transfers creates value", "statement": "Take any sequence of issued records and accepted transfers of any kind (transparent, with hidden amounts, with hidden types, both, or a confidential multi-asset mix; verified alone or in batches), each consuming unspent records. Whatever openings are known of the records, for every asset type the unspent records are worth no more than was issued, and each holds a 64-bit amount, unless the openings used in some transfer of the history give a relation between the generators of the commitments. With transparent transfers only, the totals are exactly those issued. (False once mixes with one record, or with more outputs than inputs, are accepted: then one issued unit becomes a thousand.)", "quantifier": "all sequences of any length of issues and transfers, all numbers of inputs and outputs, all batches, all openings of the records, all asset types", "why_tests_cant": "The claim is about whole ledgers and about every proof a cheating prover can make: values must not appear through the interplay of differently proved transfers. A test runs a few honest transfers.", "anchors": ["api/src/xfr/mod.rs: batch_verify_xfr_body_asset_records, batch_verify_asset_mix", "api/src/xfr/proofs.rs: batch_verify_confidential_amount, batch_verify_confidential_asset, extract_value_commitments", "api/src/xfr/asset_mixer.rs: batch_verify_asset_mixing"]}
{"id": "C74", "title": "Transfer keys can be compared, sorted and used as keys of maps", "statement": "For public and for secret transfer keys of every kind: two keys compare equal exactly when they are the same key; comparison is a strict total order, the same one in which multi-signatures are sorted, and agrees with the partial order; equal keys hash equally and different keys write different bytes to the hasher.", "quantifier": "all pairs and triples of keys of the three kinds, all hasher states", "why_tests_cant": "Sorted and hashed maps lose entries if the laws of the order fail for a single pair or triple of keys; a test compares a few keys.", "anchors": ["api/src/xfr/sig.rs: PartialEq, Ord, PartialOrd, Hash for XfrPublicKey and XfrSecretKey"]}
{"id": "C75", "title": "Identity policies are enforced", "statement": "When a batch of transfers with tracing policies is accepted, every transfer came with valid policies, one list for each input and output, and every policy that asks for an identity is met: the transfer has an identity proof in that place, and the credential library accepts it for the policy's tracing key, the commitment registered for the record and the attribute ciphertexts in the tracing memo. Where no identity is asked for there is no identity proof. A record is built from a template only with one opening for each policy and no opening where no identity is asked for, and the builder without identities refuses exactly the policies that ask for one.", "quantifier": "every batch, transfer, record and policy, every choice of the verifier's randomness, and every identity proof, memo and commitment a sender may put there", "why_tests_cant": "A test tries a few well-formed transfers; the claim is about every malformed list of proofs, memos, policies and commitments an attacker can send.", "anchors": ["api/src/xfr/proofs.rs: batch_verify_tracer_tracing_proof, verify_identity_proofs", "api/src/xfr/mod.rs: batch_verify_xfr_bodies", "api/src/xfr/asset_record.rs: build_record_input_from_template, from_open_asset_record_with_asset_tracing_but_no_identity"]}
