{
 "claims": [
  {
   "property": "C01",
   "status": "proved",
   "theorems": [
    "C01_membership_proofs_verify",
    "C01_absent_ids_refused"
   ],
   "note": "all histories within capacity, any hash"
  },
  {
   "property": "C02",
   "status": "proved",
   "theorems": [
    "C02_root_is_abstract_root"
   ],
   "note": "refinement to the abstract 3-ary tree"
  },
  {
   "property": "C03",
   "status": "proved",
   "theorems": [
    "C03_proof_binds_leaf"
   ],
   "note": "the collision is explicit: a triple of the path against the triple of the tree"
  },
  {
   "property": "C04",
   "status": "partial",
   "theorems": [
    "C04_crash_recovers_last_commit",
    "C04_failed_commit_desynchronises_refuted"
   ],
   "note": "holds when the store accepts commits; a refused commit leaves the counter ahead of the store"
  },
  {
   "property": "C05",
   "status": "proved",
   "theorems": [
    "C05_versions_are_immutable",
    "C05_immutable_tree_reads_last_commit"
   ],
   "note": "storage crate versions assumed unlimited"
  },
  {
   "property": "C06",
   "status": "partial",
   "theorems": [
    "C06_get_leaf_refuted",
    "C06_get_leaf_partial"
   ],
   "note": "false of the code: get_leaf uses the id as a node key"
  },
  {
   "property": "C07",
   "status": "partial",
   "theorems": [
    "C07_reduced_depth_partial",
    "C07_guard_off_by_one_refuted",
    "C07_immutable_reduced_depth_refuted"
   ],
   "note": "holds for the mutable tree and id < 3^depth; false for id = 3^depth and for the immutable tree"
  },
  {
   "property": "C08",
   "status": "partial",
   "theorems": [
    "C08_full_tree_refuted"
   ],
   "note": "false of the code: no capacity check"
  },
  {
   "property": "C09",
   "status": "proved",
   "theorems": [
    "C09_plain_transfer_conserves",
    "C09_plain_transfer_conserves_in_batch"
   ],
   "note": "iff over unbounded integers, also inside any batch; amounts are u64, fewer than 2^62 records"
  },
  {
   "property": "C10",
   "status": "proved",
   "theorems": [
    "C10_confidential_transfer_creates_no_value",
    "C10_confidential_types_agree",
    "C10_plain_types_agree",
    "C10_plain_amounts_balance"
   ],
   "note": "relative to a knowledge extractor for range/equality proofs; alternative is an explicit discrete-log relation computed from openings"
  },
  {
   "property": "C11",
   "status": "partial",
   "theorems": [
    "C11_burning_transfer_accepted_refuted",
    "C11_built_transfers_conserve_partial"
   ],
   "note": "false of the verifier (accepted burning transfer exhibited); true for bodies made by the builder"
  },
  {
   "property": "C12",
   "status": "proved",
   "theorems": [
    "C12_kind_matches_records",
    "C12_kind_defined",
    "C12_built_proof_matches_records",
    "C12_record_flags_roundtrip"
   ],
   "note": ""
  },
  {
   "property": "C13",
   "status": "partial",
   "theorems": [
    "C13_builder_balances_partial",
    "C13_builder_accepts_balanced",
    "C13_fee_unchecked_refuted"
   ],
   "note": "false as stated: with no fee-type record the fee is not checked; proved for all other types always, and for the fee type when some record has it"
  },
  {
   "property": "C14",
   "status": "partial",
   "theorems": [
    "C14_full_circuit_forgery_refuted",
    "C14_circuit_conserves_partial",
    "C14_any_values_satisfiable_refuted",
    "C14_value_created_refuted"
   ],
   "note": "false as stated: variables 0 and 1 are unconstrained, so any amounts satisfy the constraints; proved for assignments with variable 0 = 0 and variable 1 = 1"
  },
  {
   "property": "C15",
   "status": "partial",
   "theorems": [
    "C15_builder_accepted_provable_partial",
    "C15_accepted_but_unprovable_refuted"
   ],
   "note": "false as stated in three ways; proved with the three side conditions"
  },
  {
   "property": "C16",
   "status": "partial",
   "theorems": [
    "C16_duplicate_inputs_accepted_refuted",
    "C16_double_spend_exposed_partial"
   ],
   "note": "false as stated: the same record twice is accepted by builder, circuit and verifier; proved: two spends of one tree position publish the same nullifier or exhibit an explicit hash collision"
  },
  {
   "property": "C17",
   "status": "proved",
   "theorems": [
    "C17_field_totals",
    "C17_integer_totals"
   ],
   "note": "Soundness over challenge grids: if a mix with as many outputs as inputs (at least two) is satisfiable for every choice of challenges in a set S larger than 4n^2, then per-type totals agree, over the integers."
  },
  {
   "property": "C18",
   "status": "partial",
   "theorems": [
    "C18_no_inflation",
    "C18_outputs_in_range",
    "C18_one_input_refuted",
    "C18_one_output_refuted",
    "C18_more_outputs_refuted",
    "C18_more_inputs_lose_value_refuted"
   ],
   "note": "True for 2 <= outputs <= inputs (C18_no_inflation), and outputs are always 64-bit. Refuted as stated: one record on a side, or more outputs than inputs, creates value."
  },
  {
   "property": "C19",
   "status": "proved",
   "theorems": [
    "C19_sort_is_permutation",
    "C19_sort_groups_types",
    "C19_merge_totals",
    "C19_honest_mix_is_satisfied",
    "C19_honest_integer_mix",
    "C19_honest_mix_is_accepted",
    "C19_generators_exact",
    "C19_single_record_count_panics",
    "C19_type_mismatch_is_an_error"
   ],
   "note": "Sorting, merging and the honest gadget; generator count exact for two or more records on each side and panicking for one."
  },
  {
   "property": "C20",
   "status": "proved",
   "theorems": [
    "C20_commit",
    "C20_honest_opening",
    "C20_degree_refused",
    "C20_exact",
    "C20_no_panic",
    "C20_wrong_value_yields_secret",
    "C20_two_values_break",
    "C20_shrink",
    "C20_blinding"
   ],
   "note": "Honest openings, exact acceptance, wrong value or two values extract the setup secret / an SDH solution"
  },
  {
   "property": "C21",
   "status": "partial",
   "theorems": [
    "C21_valid_accepted",
    "C21_fixed_openings_partial",
    "C21_two_points",
    "C21_bad_lengths_panic",
    "C21_forged_openings_refuted",
    "C21_batch_honest",
    "C21_batch_values_unbound_refuted",
    "C21_batch_truncation_refuted"
   ],
   "note": "Acceptance for as many challenges as openings implies all openings; the full property is refuted: openings chosen after the challenge are forgeable"
  },
  {
   "property": "C22",
   "status": "partial",
   "theorems": [
    "C22_group",
    "C22_group_refused",
    "C22_honest",
    "C22_lagrange_parameters",
    "C22_choose_ks",
    "C22_equation_sound",
    "C22_verifier_exact",
    "C22_forged_openings_refuted",
    "C22_four_commitments_refuted",
    "C22_malformed_panics_refuted",
    "C22_extra_inputs_refuted",
    "C22_missing_inputs_refuted",
    "C22_bls_honest",
    "C22_cosets_collide_refuted"
   ],
   "note": "Honest proofs are accepted for every satisfying assignment (also instantiated at BLS12-381 for all padded sizes up to 2^28), the verifier's decision on truthful proofs is exactly its equation, and the equation at enough challenges yields a satisfying assignment when the coset representatives are in distinct cosets. Refuted beyond that: the indexer does not ensure distinct cosets, the openings are forgeable after the last challenge, and the number of witness commitments and of public inputs is not checked, so proofs without a witness are accepted."
  },
  {
   "property": "C23",
   "status": "partial",
   "theorems": [
    "C23_exact",
    "C23_ordinate_refuted",
    "C23_total_forgery_refuted",
    "C23_same_constraints",
    "C23_public_key_refuted",
    "C23_honest_partial",
    "C23_prover_panics",
    "C23_secp_forgery_refuted",
    "C23_commitments"
   ],
   "note": "Refuted: the constraints of point_add_constant never use the ordinate of the left point, so any coordinates are accepted as public key of any secret with at least three set bits (C23_total_forgery_refuted, for the code's field C23_secp_forgery_refuted). Proved: the exact meaning of the verifier's constraints (C23_exact), prover and verifier build the same constraints, the honest prover is accepted or panics exactly as described. Missing: soundness, which is false."
  },
  {
   "property": "C24",
   "status": "proved",
   "theorems": [
    "C24_grant",
    "C24_grant_wrong_number",
    "C24_grant_valid",
    "C24_disclosure_accepted",
    "C24_open_credential_accepted",
    "C24_commitment_accepted",
    "C24_commit_without_randomizer",
    "C24_api_accepted",
    "C24_wrong_map_refused",
    "C24_revealed_attributes",
    "C24_oversized_panics"
   ],
   "note": "Issuance, commitment and every selective disclosure accepted for every number of attributes, reveal map and randomness; also through the u32 api."
  },
  {
   "property": "C25",
   "status": "partial",
   "theorems": [
    "C25_exact",
    "C25_no_panic",
    "C25_missing_responses_refused",
    "C25_special_soundness",
    "C25_signature_is_issued",
    "C25_identity_refuted",
    "C25_identity_api_refuted",
    "C25_late_attributes_refuted",
    "C25_extra_attributes_refuted"
   ],
   "note": "Refuted as stated: the identity commitment is accepted with any attributes, the revealed attributes are not hashed, extra claimed attributes are ignored. Proved: exact acceptance, special soundness with explicit extraction, and equality of an extracted signature with an issued one."
  },
  {
   "property": "C26",
   "status": "partial",
   "theorems": [
    "C26_disclosure_accepted",
    "C26_count_mismatch_refused",
    "C26_special_soundness",
    "C26_identity_refuted"
   ],
   "note": "Honest disclosures accepted with correct decryption, counts enforced, special soundness with decryption; refuted for the identity commitment, which discloses unsigned attributes."
  },
  {
   "property": "C27",
   "status": "proved",
   "theorems": [
    "C27_honest_accepted",
    "C27_exact_acceptance",
    "C27_false_row_one_draw",
    "C27_special_soundness",
    "C27_wrong_length_panics"
   ],
   "note": "completeness, exact acceptance over the verifier's draws, one bad draw per false row, explicit extractor"
  },
  {
   "property": "C28",
   "status": "proved",
   "theorems": [
    "C28_prover_succeeds",
    "C28_honest_accepted",
    "C28_single_accepted",
    "C28_batch_is_conjunction",
    "C28_special_soundness",
    "C28_each_pair",
    "C28_message_unique",
    "C28_length_mismatch_panics",
    "C28_weights_are_drawn",
    "C28_any_weights",
    "C28_every_pair_is_tied",
    "C28_tied_pairs_are_answered"
   ],
   "note": "honest single/aggregate/batch acceptance, batch = conjunction, explicit extractor for the combination, and from it for every pair (the weights are shown to be drawn challenges, free except for the first), uniqueness; tied pairs can always be answered"
  },
  {
   "property": "C29",
   "status": "partial",
   "theorems": [
    "C29_honest_accepted",
    "C29_honest_batch_accepted",
    "C29_batch_is_conjunction",
    "C29_first_two_share_value",
    "C29_rest_differ_by_blinding",
    "C29_each_shares_value",
    "C29_too_few_refused",
    "C29_too_few_batch_refuted",
    "C29_wrong_shape_refused",
    "C29_weights_are_drawn",
    "C29_any_weights",
    "C29_all_share_one_value",
    "C29_one_value_is_answered"
   ],
   "note": "completeness, batch = conjunction and extraction of one value for all commitments proved; the batch verifier panics on fewer than two commitments (refuted part)"
  },
  {
   "property": "C30",
   "status": "partial",
   "theorems": [
    "C30_honest_accepted",
    "C30_exact_acceptance",
    "C30_extraction",
    "C30_inspected_values_committed",
    "C30_inspection_consistent",
    "C30_malformed_rejected_refuted"
   ],
   "note": "completeness, exact acceptance, extraction and inspected values proved; malformed lengths panic (refuted part)"
  },
  {
   "property": "C31",
   "status": "partial",
   "theorems": [
    "C31_sum_of_multiples_partial",
    "C31_800_scalars_refuted",
    "C31_digits"
   ],
   "note": "Correct for fewer than 800 scalars and all points (C31_sum_of_multiples_partial); with 800 or more every call panics (C31_800_scalars_refuted)."
  },
  {
   "property": "C32",
   "status": "partial",
   "theorems": [
    "C32_sixteen_terms_partial",
    "C32_general_position_partial",
    "C32_repeated_point_refuted"
   ],
   "note": "Correct for at most 16 non-zero scalars, and for any number of points in general position; refuted in general: 18 copies of a point are added up wrongly."
  },
  {
   "property": "C33",
   "status": "proved",
   "theorems": [
    "C33_range_check_satisfiable_iff",
    "C33_range_check_bits",
    "C33_range_check_bits_any_length"
   ],
   "note": "Satisfiability iff and uniqueness of the bits over any prime field; 2^n <= field size for uniqueness."
  },
  {
   "property": "C34",
   "status": "partial",
   "theorems": [
    "C34_gadgets_compute_partial",
    "C34_arithmetic_gadgets_compute",
    "C34_gadgets_complete",
    "C34_equal_unanchored_refuted",
    "C34_is_equal_unanchored_refuted"
   ],
   "note": "All gadgets proved under the convention variable0=0, variable1=1; the unconditional statement is refuted for equal/is_equal because the constraint system never pins these two variables (TurboCS::new inserts no gates). Arithmetic gadgets proved without the convention; completeness proved."
  },
  {
   "property": "C35",
   "status": "partial",
   "theorems": [
    "C35_accepted_is_smaller_partial",
    "C35_smaller_is_accepted",
    "C35_variable_zero_refuted",
    "C35_key_check_partial",
    "C35_key_check_complete"
   ],
   "note": "false as stated when variable 0 is not zero (nothing constrains it); proved for variable 0 = 0, and complete; also for the key check with the secp256k1 order"
  },
  {
   "property": "C36",
   "status": "proved",
   "theorems": [
    "C36_total",
    "C36_out_of_range_panics",
    "C36_bijection",
    "C36_cycles",
    "C36_copy_constraints"
   ],
   "note": "Bijection whose cycles are the variable classes; copy constraints equivalent"
  },
  {
   "property": "C37",
   "status": "partial",
   "theorems": [
    "C37_padding_preserves_witnesses",
    "C37_verify_witness_iff_gates",
    "C37_public_input_binds",
    "C37_verify_witness_ignores_booleans_refuted",
    "C37_gate_is_linear_in_selectors"
   ],
   "note": "padding proved; witness verification accepts iff all gate equations hold, but it ignores attached boolean constraints (refuted)"
  },
  {
   "property": "C38",
   "status": "partial",
   "theorems": [
    "C38_coefficient",
    "C38_curve_is_a_group",
    "C38_addition",
    "C38_selection",
    "C38_base_multiples",
    "C38_multiplication_by_bits",
    "C38_scalar_multiplication_partial",
    "C38_scalar_multiplication_any_length",
    "C38_scalar_multiplication_honest",
    "C38_refused_lengths",
    "C38_long_scalars_refuted"
   ],
   "note": "proved for scalars of at most 254 bits and exactly characterised for all lengths; refuted for longer scalars (256 bits, as the crate's test uses): a scalar then has two satisfying outputs"
  },
  {
   "property": "C39",
   "status": "proved",
   "theorems": [
    "C39_gadget_outputs_native_hash",
    "C39_gadget_completes"
   ],
   "note": "soundness for every satisfying assignment and completeness of the honest run, over any surrounding system"
  },
  {
   "property": "C40",
   "status": "proved",
   "theorems": [
    "C40_round_key_forms_agree",
    "C40_keyed_bijection",
    "C40_rescue_bijection"
   ],
   "note": "textbook keyed form against the code's two forms; bijectivity for every key"
  },
  {
   "property": "C41",
   "status": "proved",
   "theorems": [
    "C41_trace_output_is_hash",
    "C41_flow_relation_characterises_trace",
    "C41_constants_consistent",
    "C41_declared_degree_refuted"
   ],
   "note": "the relation has degree 5; the declared constant ALPHA = 7 is refuted as its degree"
  },
  {
   "property": "C42",
   "status": "partial",
   "theorems": [
    "C42_forged_zero",
    "C42_circuit_sound_refuted",
    "C42_round_trip",
    "C42_round_trip_iff",
    "C42_into",
    "C42_subtraction",
    "C42_subtraction_unreduced",
    "C42_multiplication",
    "C42_sum_of_products",
    "C42_product_minus_element",
    "C42_zero_check",
    "C42_native_computation",
    "C42_witness",
    "C42_bounded_witness_partial",
    "C42_constant",
    "C42_input_unconstrained",
    "C42_circuit_sound_partial",
    "C42_circuit_complete",
    "C42_product_circuit_sound_partial",
    "C42_product_circuit_complete"
   ],
   "note": "Conversions, subtraction, multiplication, sums and the native zero check are proved exactly for both parameter sets; any computation built from them; circuit soundness for every computation (needs variable zero to be zero, which the constraint system never enforces; without it the statement is refuted by a complete forged assignment, C42_circuit_sound_refuted), honest completeness, and the meaning of every allocation. Integers of more than six limbs do not round-trip."
  },
  {
   "property": "C43",
   "status": "partial",
   "theorems": [
    "C43_eval",
    "C43_coefficients",
    "C43_homomorphism",
    "C43_normal_forms",
    "C43_normal_form_unique",
    "C43_division",
    "C43_division_unique",
    "C43_division_by_zero_refuted",
    "C43_from_zeroes",
    "C43_add_coef",
    "C43_is_zero",
    "C43_is_zero_empty_refuted"
   ],
   "note": "Coefficient-exact add/sub/neg/scale/substitute/add_coef, evaluation homomorphism, normal forms, division with remainder (existence, uniqueness), product of linear factors. FpPolynomial has no multiplication method. Refuted part: division by a polynomial with zero leading coefficient and is_zero of an empty vector panic."
  },
  {
   "property": "C44",
   "status": "partial",
   "theorems": [
    "C44_fft_values",
    "C44_coset_fft_values",
    "C44_interpolation",
    "C44_ifft_fft",
    "C44_coset_ifft_fft",
    "C44_fft_ifft",
    "C44_unsupported_panics",
    "C44_degree_n_refuted",
    "C44_size_2_32_refuted",
    "C44_root_primitive",
    "C44_no_root",
    "C44_bls_fft",
    "C44_oversize_refuted"
   ],
   "note": "All sizes 2^k and 3*2^k: values in order, interpolation and uniqueness, both round trips, coset versions, primitive root from the generator, BLS12-381 instance with generator 7. Refuted: a polynomial with 2n coefficients is accepted for size n and returns 2n wrong numbers; degree exactly n panics; size 2^32 panics in the inverse."
  },
  {
   "property": "C45",
   "status": "proved",
   "theorems": [
    "C45_memo_round_trip",
    "C45_wrong_length_rejected",
    "C45_accepted_memo_opens_record",
    "C45_opening_unique",
    "C45_finalize_once",
    "C45_build_requirements"
   ],
   "note": "For an arbitrary Diffie-Hellman suite and cipher: the memo round trip, rejection of wrong lengths, accepted memos open the published commitment, and two openings of one commitment give an explicit hash collision."
  },
  {
   "property": "C46",
   "status": "proved",
   "theorems": [
    "C46_hybrid_x25519_round_trip",
    "C46_lengths_preserved",
    "C46_hybrid_is_malleable",
    "C46_hybrid_bytes",
    "C46_transfer_key_round_trip",
    "C46_transfer_key_encrypts",
    "C46_addresses_and_short_locks_panic",
    "C46_scalar_conversion",
    "C46_each_byte_has_its_own_mask",
    "C46_repeated_randomness_reveals",
    "C46_elgamal_round_trip",
    "C46_elgamal_verify_exact"
   ],
   "note": "ElGamal and hybrid encryption (X25519, Ed25519 and Secp256k1 transfer keys) round-trip and preserve lengths; malleability and the panics for address keys and short locks are proved as findings"
  },
  {
   "property": "C47",
   "status": "partial",
   "theorems": [
    "C47_round_trips",
    "C47_accepted_strings",
    "C47_canonical_partial",
    "C47_not_canonical_refuted",
    "C47_equality_is_of_keys",
    "C47_keypair_decoding_refuted"
   ],
   "note": "round trips and the exact set of accepted strings are proved; canonicity is false as stated (refuted: unknown key types, padding, legacy lengths) and proved for strings in the current format"
  },
  {
   "property": "C48",
   "status": "proved",
   "theorems": [
    "C48_single_signatures",
    "C48_recovery_id_is_malleable",
    "C48_honest_in_any_order",
    "C48_acceptance_exact"
   ],
   "note": "any order, exact matching of keys and signatures, refusal of other lengths, for every correct sort"
  },
  {
   "property": "C49",
   "status": "partial",
   "theorems": [
    "C49_transfer_batch_partial",
    "C49_unshield_batch_partial",
    "C49_to_confidential_batch_partial",
    "C49_from_confidential_batch_partial",
    "C49_shield_batch",
    "C49_short_vectors_accept_anything_refuted",
    "C49_bad_note_in_batch_refuted"
   ],
   "note": "Exact for batches with one vector; for the others exact when the vectors have one length. Refuted in general: lengths are not compared, so empty vectors of roots, hashes or keys accept any notes."
  },
  {
   "property": "C50",
   "status": "partial",
   "theorems": [
    "C50_template_records",
    "C50_amount_check",
    "C50_type_check",
    "C50_type_search",
    "C50_type_found",
    "C50_attribute_check",
    "C50_library_records",
    "C50_honest_proofs_made",
    "C50_honest_transfers_accepted",
    "C50_honest_transfers_are_traced_partial",
    "C50_identity_only_policy_refuted",
    "C50_verifier_reads_only_checked_slots",
    "C50_silent_transfers_refuted",
    "C50_false_values_refuted",
    "C50_malicious_memo_panics",
    "C50_blocked_tracing_refuted",
    "C50_checked_locks",
    "C50_checked_memos_tell_the_truth"
   ],
   "note": "Honest transfers are accepted and traced exactly; every checked lock is bound to its commitment and read back truthfully. The full claim is refuted: the verifier never reads the key or the plaintext of a memo, so accepted transfers can hide from, block, crash or misinform the tracer, and a policy that traces only identities makes tracing of a hidden record fail."
  },
  {
   "property": "C51",
   "status": "proved",
   "theorems": [
    "C51_opens_to_what_was_built",
    "C51_built_records_are_consistent",
    "C51_blindings_are_separate",
    "C51_building_succeeds",
    "C51_address_keys_panic",
    "C51_malformed_memos",
    "C51_bad_share_panics",
    "C51_commitments_are_not_checked",
    "C51_blinding_inputs_differ",
    "C51_labels_differ"
   ],
   "note": "Every record that can be built opens to the opening it was built from, for all four types. Building succeeds for Ed25519 and Secp256k1 keys and panics for address keys. Opening does not compare the memo with the commitments, and a malformed share makes it panic."
  },
  {
   "property": "C52",
   "status": "proved",
   "theorems": [
    "C52_secret_key_packing_injective",
    "C52_public_key_packing_injective",
    "C52_commitment_binding",
    "C52_nullifier_binding"
   ],
   "note": "asset types enter through their scalar; equality of hashes gives an explicit collision"
  },
  {
   "property": "C53",
   "status": "partial",
   "theorems": [
    "C53_byte_slices_exact",
    "C53_u64_split_exact",
    "C53_shift_halves",
    "C53_limbs_to_bytes",
    "C53_bytes_to_limbs",
    "C53_limbs_round_trip",
    "C53_power_of_two_partial",
    "C53_power_of_two_refuted"
   ],
   "note": "every helper exact on its domain except the rounding to a power of two, which is wrong at 0 and above 2^31 (refuted); base64 and file helpers not modelled"
  },
  {
   "property": "C54",
   "status": "partial",
   "theorems": [
    "C54_big_integers_partial",
    "C54_big_integers_refuted",
    "C54_decoding_exact",
    "C54_round_trip",
    "C54_canonical_decoding_partial",
    "C54_decoding_refuted",
    "C54_unreduced_scalars",
    "C54_integer_round_trip",
    "C54_field_sizes"
   ],
   "note": "refuted for Ristretto (From<&BigUint> panics whenever the remainder is below 2^248, in particular for every u64) and for decoding in all five fields; exact decoding, round trips, injectivity on canonical encodings, field sizes proved"
  },
  {
   "property": "C55",
   "status": "proved",
   "theorems": [
    "C55_split_recombines",
    "C55_split_sizes",
    "C55_hiding",
    "C55_hiding_covers"
   ],
   "note": "Chunks recombine at every point for all random values, sizes fit, hiding changes nothing on the group."
  },
  {
   "property": "C56",
   "status": "partial",
   "theorems": [
    "C56_shield_accepts_exactly",
    "C56_hidden_records_are_refused",
    "C56_unshield_accepts_exactly",
    "C56_shield_creates_what_it_consumes_partial",
    "C56_unshield_spends_what_it_creates_partial",
    "C56_honest_shield_is_provable",
    "C56_honest_unshield_is_provable",
    "C56_unshield_owner_unbound_refuted"
   ],
   "note": "Acceptance characterised exactly; with an extractable proof system a shielding note creates, and an unshielding note spends, the amount and type it shows, provided variable 0 is fixed at zero; honest notes are provable. Refuted: the output owner of an unshielding note is bound only through the caller-supplied hash."
  },
  {
   "property": "C57",
   "status": "proved",
   "theorems": [
    "C57_honest_transfer_verifies"
   ],
   "note": "relative to complete proof systems"
  },
  {
   "property": "C58",
   "status": "partial",
   "theorems": [
    "C58_accepted_assignment_is_a_transfer_partial",
    "C58_honest_transfer_is_provable"
   ],
   "note": "soundness proved for assignments with variable 0 = 0 and variable 1 = 1 (false otherwise, see C14); completeness proved; address folding is an arbitrary gadget"
  },
  {
   "property": "C59",
   "status": "proved",
   "theorems": [
    "C59_recovery_ids"
   ],
   "note": "for all v"
  },
  {
   "property": "C60",
   "status": "partial",
   "theorems": [
    "C60_reveal_challenge_binds",
    "C60_commitment_challenge_binds",
    "C60_confidential_challenge_binds",
    "C60_conversion_challenges_bind",
    "C60_plonk_challenges_bind",
    "C60_plonk_key_bound_refuted",
    "C60_sigma_challenge_binds",
    "C60_ciphertext_challenges_bind",
    "C60_equality_challenges_bind",
    "C60_delegated_challenges_bind"
   ],
   "note": "proved for plain sigma proofs, ciphertext equality, equality of many commitments, delegated Schnorr, credential commitments and confidential disclosure; the attributes revealed by a plain disclosure are not hashed (C25_late_attributes_refuted), nor are three fields of the PLONK verifier parameters; everything else of these two is bound"
  },
  {
   "property": "C61",
   "status": "partial",
   "theorems": [
    "C61_limbs_partial",
    "C61_limbs_refuted",
    "C61_powers"
   ],
   "note": "limbs proved for four fields and refuted for secp256k1 (always panics); powers proved with the exact panic condition"
  },
  {
   "property": "C62",
   "status": "partial",
   "theorems": [
    "C62_circuit_sound_partial",
    "C62_commitment_binding",
    "C62_three_lambdas",
    "C62_two_lambdas_insufficient",
    "C62_two_betas",
    "C62_statement_opens",
    "C62_extraction",
    "C62_honest_never_panics",
    "C62_honest_prover_accepted",
    "C62_gadget_is_the_code",
    "C62_transfer_sound_partial",
    "C62_transfer_complete",
    "C62_transfer_forgery_refuted",
    "C62_honest_keys_exist"
   ],
   "note": "Soundness holds for assignments with zero in variable 0 (which nothing enforces, see C14) and leaves the coordinates below 2^256 rather than below the modulus; binding, extraction, totality and completeness are proved in full."
  },
  {
   "property": "C63",
   "status": "partial",
   "theorems": [
    "C63_from_shape",
    "C63_to_shape",
    "C63_setup_conf_never_panics",
    "C63_setup_fits_conf",
    "C63_setup_conf_extractable",
    "C63_setup_conf_complete",
    "C63_folding_shape",
    "C63_transfer_shape",
    "C63_shield_shape",
    "C63_unshield_shape",
    "C63_setup_folding_never_panics",
    "C63_setup_fits_transfer",
    "C63_setup_fits_shield_unshield",
    "C63_setup_transfer_complete",
    "C63_setup_transfer_sound_partial",
    "C63_setup_extractable"
   ],
   "note": "Proved for all five circuits with the real folding gadget; soundness for the parameters' circuit carries the proviso of C14 (variables 0 and 1 hold zero and one), hence partial."
  },
  {
   "property": "C64",
   "status": "partial",
   "theorems": [
    "C64_from_circuit_sound_partial",
    "C64_to_circuit_sound_partial",
    "C64_state_binding",
    "C64_committed_values",
    "C64_undecodable_is_error",
    "C64_accepted_from_partial",
    "C64_accepted_to_partial",
    "C64_extraction",
    "C64_carried_value",
    "C64_from_extraction_partial",
    "C64_to_extraction_partial",
    "C64_from_honest_accepted",
    "C64_to_honest_accepted",
    "C64_malformed_proof_panics_refuted",
    "C64_verifiers_never_panic_partial",
    "C64_output_halves_bound_refuted"
   ],
   "note": "Proved for assignments with zero in variable 0 (see C14): circuit soundness for both directions, accepted notes, extraction, honest notes. Refuted: malformed proofs are rejected (they panic); the halves and owner of a confidential output are bound by the proofs (only the caller's hash binds them)."
  },
  {
   "property": "C65",
   "status": "proved",
   "theorems": [
    "C65_srs_round_trip",
    "C65_srs_accepted",
    "C65_truncated_srs",
    "C65_lagrange_loaded",
    "C65_lagrange_absent",
    "C65_lagrange_undecodable",
    "C65_lagrange_same_parameters",
    "C65_lagrange_same_proof",
    "C65_shrink_same_verdict",
    "C65_shrink_total",
    "C65_load_is_create",
    "C65_files_generated",
    "C65_load_one_is_create",
    "C65_load_range"
   ],
   "note": "The encodings of single group elements and bincode are parameters with the law that decoding undoes encoding."
  },
  {
   "property": "C66",
   "status": "proved",
   "theorems": [
    "C66_transfer",
    "C66_shield",
    "C66_unshield",
    "C66_confidential_to_anonymous",
    "C66_anonymous_to_confidential"
   ],
   "note": "all five operations; the conditions on the reference string, Lagrange bases and challenges are in the definition fits, the one failure in unlucky"
  },
  {
   "property": "C67",
   "status": "partial",
   "theorems": [
    "C67_text_round_trip",
    "C67_text_canonical_partial",
    "C67_text_unique_refuted",
    "C67_formats",
    "C67_vectors",
    "C67_amounts",
    "C67_objects_round_trip",
    "C67_accepted_bytes",
    "C67_no_panic_partial",
    "C67_wrong_length_panics_refuted",
    "C67_unchecked_refuted"
   ],
   "note": "proved as stated for every codec except: uniqueness of texts fails for padding; decoding compressed Curve25519 points and ElGamal ciphertexts panics on wrong lengths; trailing bytes and inconsistent key pairs are accepted"
  },
  {
   "property": "C68",
   "status": "partial",
   "theorems": [
    "C68_round_trip",
    "C68_maps_read",
    "C68_field_order",
    "C68_earlier_maps",
    "C68_earlier_sequences_refuted",
    "C68_malformed_share_panics_refuted",
    "C68_no_panic_partial"
   ],
   "note": "memos of earlier versions as sequences are refused and an earlier share of a wrong length panics; everything else proved"
  },
  {
   "property": "C69",
   "status": "proved",
   "theorems": [
    "C69_messagepack",
    "C69_signed_bytes_determine_body",
    "C69_stored_notes",
    "C69_signatures_cover_body",
    "C69_owners_signatures_accepted",
    "C69_encodings"
   ],
   "note": "Notes and bodies of every shape; points, scalars, keys and proofs through faithful byte encodings, which C69_encodings gives for the library's types (range and R1CS proofs: any faithful encoding)."
  },
  {
   "property": "C70",
   "status": "partial",
   "theorems": [
    "C70_accepted_note_is_an_event_partial",
    "C70_pool_never_pays_out_more_partial",
    "C70_honest_ledger",
    "C70_no_history_creates_value_partial",
    "C70_spends_earlier_records",
    "C70_second_secret_refuted"
   ],
   "note": "proved for every history, with one secret key per public key (otherwise refuted by C70_second_secret_refuted, the circuits allow it, C23) and with the constants in variables 0 and 1 (C14); unless the hash fails on inputs met in the history"
  },
  {
   "property": "C71",
   "status": "partial",
   "theorems": [
    "C71_accepted_moves_have_findings_partial",
    "C71_conversions_create_nothing_partial",
    "C71_honest_ledger"
   ],
   "note": "One secret key per public key (C23) and constants in variables 0 and 1 (C14) are needed; zero is not enforced by the constraint system. The statement speaks of the openings anybody knows of the confidential records, and of the responses of four runs per conversion."
  },
  {
   "property": "C72",
   "status": "partial",
   "theorems": [
    "C72_from_partial",
    "C72_to_partial",
    "C72_shield_partial",
    "C72_unshield_partial",
    "C72_transfer_partial",
    "C72_accepted_note_partial",
    "C72_explicit_history_partial",
    "C72_honest_ledger"
   ],
   "note": "Proved for assignments with the constants 0 and 1 in variables 0 and 1, which the circuits do not enforce by themselves (C42); the history theorem also assumes one secret key per public key (C23)."
  },
  {
   "property": "C73",
   "status": "partial",
   "theorems": [
    "C73_no_history_creates_value_partial",
    "C73_unspent_amounts_partial",
    "C73_transparent_ledger_exact",
    "C73_accepted_transfers_continue",
    "C73_mix_establishes",
    "C73_limbs_open_the_whole",
    "C73_mix_of_one_record_creates_value_refuted"
   ],
   "note": "all kinds of transfers, with confidential multi-asset mixes limited to two or more outputs and no more outputs than inputs; without that limit the claim is refuted end to end"
  },
  {
   "property": "C74",
   "status": "proved",
   "theorems": [
    "C74_public_keys_are_lawful",
    "C74_secret_keys_are_lawful",
    "C74_order_is_the_signing_order"
   ],
   "note": "the laws of Eq, Ord, PartialOrd and Hash for public and secret transfer keys of every kind; the order is the one multi-signatures are sorted in"
  },
  {
   "property": "C75",
   "status": "proved",
   "theorems": [
    "C75_building_checks_identities",
    "C75_building_without_identities",
    "C75_every_transfer_has_valid_policies",
    "C75_identity_policies_are_enforced"
   ],
   "note": "The verifier of identity proofs is a parameter of the model here; what it accepts is the subject of C25 and C26. The builder does not refuse a missing opening where an identity is asked for (C75_building_case): transfers with such a record are refused later."
  }
 ]
}
