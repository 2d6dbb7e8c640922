# A Rocq model of FindoraNetwork/zei

This file says what is modelled, how each property of `properties.jsonl` is
proved, and what the theorems rest on.  It was written before the proofs and is
updated with every milestone.

## 1. Method

* One model file `XxxModel.v` per area: total, computable Gallina functions,
  each with a comment citing the file and lines of `/repo` it models and every
  simplification.  `Result`/`Option` stay data; panics are an explicit value
  (`res := Ok | Err | Panic` of `Base.v`); `&mut` arguments become returned values.
* One specification file `XxxSpec.v` per area where the property needs
  vocabulary of its own (sums per asset type, abstract Merkle tree, numbers with
  digits in a base, ...).  The specification never uses the model's helpers.
* Proofs in `XxxProofs.v` and friends.  The property theorems are in
  `XxxProps.v`: theorems, non-vacuity examples and `Print Assumptions`.
* Cryptographic algebra is modelled over an arbitrary field / module given as an
  explicit record argument (`Field`, `PField`, `Mod`), so the theorems hold for the
  BLS12-381 scalar field, Jubjub, Ristretto, ... at once; where the code fixes a
  field the theorem is instantiated there (`BLS`, `SecpQ`, with primality proved in
  `Primality.v` and `SecpPrime.v` by Pocklington certificates).  Hash functions,
  transcripts, ciphers, signatures and proof systems are arbitrary functions passed
  as arguments; whatever is assumed about them is a hypothesis in the statement.
* Circuits (`TurboCS`) are programs that emit gates and record a witness.
  Soundness is stated for *every* assignment that satisfies the emitted gates,
  completeness for the recorded witness.  The R1CS circuits of the bulletproofs
  crate are treated the same way (`CmixModel.v`, `SmulModel.v`).
* Security of proofs of knowledge is stated without probabilities: acceptance for
  more challenges than a stated bound, or two accepting transcripts, give the
  statement (explicit extractors); collisions, discrete-log relations and SDH
  solutions appear as explicit values in the conclusion.
* Statements false of the code are proved false: `..._refuted` gives the witness,
  a `..._partial` theorem gives the largest guarded version that is true.

## 2. Plan per property

| id | property | files | what is modelled | how it is proved | status |
|---|---|---|---|---|---|
| C01 | Every inserted commitment has a membership proof that verifies | Merkle | tree state (cache and committed versions), add, commit, generate_proof, verify | invariant: every node key holds the abstract subtree hash; induction over histories | proved |
| C02 | The Merkle root is a function of the sequence of inserted leaves | Merkle | the same | refinement to the abstract 3-ary tree | proved |
| C03 | A membership proof binds position and leaf up to a hash collision | Merkle | verify, abstract tree | induction on the path; a disagreement is a collision | proved |
| C04 | Reopening a Merkle tree recovers the last committed state, whatever the crash point | Merkle | store with refusals and crash points | invariant over histories with crashes; counterexample for refused commits | partial |
| C05 | Historical versions of the tree are immutable | Merkle | versions of the store | monotonicity of histories | proved |
| C06 | get_leaf returns the commitment stored at an id | Merkle | get_leaf | counterexample; guarded version | partial |
| C07 | Proofs at a reduced depth verify against the root of that depth | Merkle | generate_proof with a depth, immutable trees | path arithmetic; counterexamples | partial |
| C08 | A full Merkle tree rejects further insertions without corrupting itself | Merkle | add at full capacity | counterexample | partial |
| C09 | Non-confidential transfers conserve every asset type | Xfr | gen_xfr_body, batch_verify_xfr_bodies amount and type part | integer sums per type | proved |
| C10 | Confidential single-asset transfers never create value | Xfr | the same with commitments | linear algebra in a module; explicit discrete-log relation | proved |
| C11 | Confidential single-asset transfers conserve value exactly | Xfr | the same | counterexample; honest bodies | partial |
| C12 | Transfer kind classification matches the records | Xfr | XfrType classification | case analysis over all record lists | proved |
| C13 | Anonymous transfers built by the API balance every asset type and pay the fee | Mix, Axfr | check_asset_amount | integer sums; counterexample | partial |
| C14 | The anonymous-transfer circuit enforces conservation for every witness | Mix, Axfr, Turbo | asset_mixing and the whole transfer circuit | soundness of gadgets for every assignment; forged assignment | partial |
| C15 | Every balanced anonymous transfer the builder accepts can be proved | Axfr | build_multi_xfr_cs and the builder | honest runs of the gadgets | partial |
| C16 | One note cannot spend the same record twice | Axfr | nullifiers in builder, circuit, verifier | hash preimages; counterexample | partial |
| C17 | The confidential multi-asset mix conserves every asset type (two or more records on each side, same counts) | Cmix | mix gadgets of bulletproofs/mix.rs | polynomial identity over challenge grids | proved |
| C18 | The confidential multi-asset mix conserves every asset type for every number of records | Cmix | the same with any counts | counterexamples and the guarded theorem | partial |
| C19 | Honest multi-asset mixes satisfy the mix constraints | Cmix | sort, merge, honest witness, generator count | honest runs; arithmetic | proved |
| C20 | A KZG opening proof is accepted exactly for the right value | Kzg | commit, prove, verify | bilinear algebra, polynomial division | proved |
| C21 | The batched two-point opening check binds the opened values | Kzg | batch openings | polynomials in the challenge; forged openings | partial |
| C22 | The PLONK verifier accepts honest proofs: linearisation agrees with the quotient identity | Plonk | indexer, prover, verifier, transcript | polynomial identities; honest proofs; challenge grids; attacks | partial |
| C23 | The scalar-multiplication proof pins the public key to the secret key | Smul | scalar_mul constraints of prover and verifier | exact characterisation of satisfiability; forged witness | partial |
| C24 | Anonymous credentials: honest issuance, commitment and selective disclosure verify | Ac | credentials | bilinear algebra | proved |
| C25 | Anonymous credentials: an accepted disclosure comes from an issued credential with those attributes | Ac | verify_open | special soundness with explicit extractor; counterexamples | partial |
| C26 | Confidential disclosure of credential attributes is consistent with the ciphertext | Ac | confidential disclosure | special soundness; counterexample | partial |
| C27 | Linear sigma protocol: completeness and special soundness | Sigma | matrix_sigma | linear algebra over lists | proved |
| C28 | Pedersen/ElGamal equality proofs tie the ciphertext to the commitment | Sigma | pedersen_elgamal | linear algebra over lists | proved |
| C29 | Chaum-Pedersen equality proofs tie commitments to one value | Sigma | chaum_pedersen | linear algebra over lists; panic | partial |
| C30 | Delegated Schnorr proofs: completeness and extraction of the inspected values | Sigma | delegated_schnorr | linear algebra; panics | partial |
| C31 | Multi-exponentiation computes the sum of scalar multiples | Msm | Group::multi_exp, pippenger, radix digits | digit invariants, sums | partial |
| C32 | The bucketed MSM of BLS12-381 G1 computes the sum of scalar multiples | Bucket | msm_unsafe, bucket reduction, Jacobian formulas | window sums; curve group law; counterexample | partial |
| C33 | The range-check gadget accepts exactly the values below 2^n | Turbo | range_check | bit decomposition in a prime field | proved |
| C34 | Selection, equality and boolean gadgets compute their function | Turbo | selection, equality and boolean gadgets | field algebra; counterexample | partial |
| C35 | The secret-key comparator accepts exactly the canonical keys | Fold | comparator of address_folding.rs | induction over bits; counterexample | partial |
| C36 | Copy-constraint permutation encodes exactly wire equality | Perm | compute_permutation | list reasoning on cycles | proved |
| C37 | Padding a circuit does not change which witnesses satisfy it | Turbo | pad, verify_witness | list reasoning; counterexample | partial |
| C38 | In-circuit Jubjub point operations compute the group operation | Ecc, Edwards | ecc.rs gadgets, complete Edwards group law | field algebra; induction over windows; counterexample | partial |
| C39 | The in-circuit hash equals the native hash | Rescue | gadget and native hash | layer equations have unique solutions | proved |
| C40 | Rescue is a permutation and its round-key forms agree | Rescue | RescueInstance | bijectivity of layers | proved |
| C41 | Anemoi-Jive evaluation agrees with its trace | Jive | jive and its trace | step equality; degree | proved |
| C42 | Limb arithmetic simulates the foreign field | Sim | SimFr, SimFrMul, SimFrVar, SimFrMulVar | integers in limbs, telescoping carries, structural induction over computations | partial |
| C43 | Polynomial arithmetic is the ring of polynomials | Poly | FpPolynomial | coefficients and evaluation | partial |
| C44 | FFT and inverse FFT are evaluation and interpolation | Poly | recursive FFT | induction on the size | partial |
| C45 | Owner memos round-trip and reject malformed plaintexts | Note | owner memos of anonymous records | byte codecs over an arbitrary suite | proved |
| C46 | Encryption round-trips | Sigma, Hyb | ElGamal, hybrid encryption | algebra; arbitrary cipher | proved |
| C47 | Transfer key and signature encodings round-trip and are canonical | Key | sig.rs encodings | byte codecs; counterexamples | partial |
| C48 | Multi-signatures accept exactly the full set of signers in any order | Key | XfrMultiSig | sorting argument | proved |
| C49 | Batch verification accepts exactly when every member verifies | Note | batch verification loops | zip reasoning; counterexample | partial |
| C50 | Tracing authorities recover what was traced | Trace | asset tracing proofs and tracer | honest theorem, binding, counterexamples | partial |
| C51 | Blind asset records open to what was built | Record | asset_record | algebra and codecs | proved |
| C52 | Commitment and nullifier preimages are injective encodings | Axfr | commit and nullify packing | integer injectivity | proved |
| C53 | Byte and integer helper conversions are exact | Utils | utils.rs | arithmetic; counterexample | partial |
| C54 | Field elements can be created from every big integer and every encoding decodes to one element | Scalar | scalar codecs | arithmetic; counterexamples | partial |
| C55 | Splitting the quotient polynomial loses nothing | Plonk | split_t, hide_polynomial | polynomial algebra | proved |
| C56 | Shielding and unshielding notes bind amount, type and owner | Note | ar_to_abar, abar_to_ar | decision logic; circuit soundness | partial |
| C57 | Honest confidential transfers verify | Xfr | builder and verifier | honest runs | proved |
| C58 | An accepted anonymous-transfer proof describes a real transfer, and every honest transfer can be proved | Axfr | note verification, circuit, proof system as a parameter | composition of the circuit theorems | partial |
| C59 | Ethereum recovery values map to the parity they encode | Key | recovery id | arithmetic | proved |
| C60 | The challenges of the non-interactive proofs bind statement and first message | Bind | transcripts of the sigma proofs, the credential proofs and PLONK | injectivity of the message lists | partial |
| C61 | Limbs and powers of scalars are exact | Scalar | limbs and powers | arithmetic | partial |
| C62 | Address folding ties a transfer's keys to the inspected commitment | Afold | the in-circuit folding gadget, its witness, the inspection commitment and the verifier input | circuit soundness with public values, binding by hash injectivity, totality of the simulated arithmetic, polynomial interpolation for the challenges | partial |
| C63 | Parameters made from placeholder witnesses fit every prover | Setup, SetupConf, Shape, ShapeInsp, ShapeConf | the placeholder witnesses and circuits of setup.rs | a relation between two runs of every gadget (same gates, same variables), composed through all builders | partial |
| C64 | Converting between confidential and anonymous records carries the same amount and type | Insp | the circuits, provers and verifiers of bar_to_abar.rs and abar_to_bar.rs with the delegated Schnorr inspection, over BLS and Ristretto scalar fields | soundness of the panicking circuit builder, binding of the state commitment, two-by-two special soundness, honest runs | partial |
| C65 | Stored, loaded and reduced parameters mean the same as created ones | Params | the bytes of the reference string and of the Lagrange bases, reduced and split verifier parameters, the files of gen-params and their loading; encodings of elements and bincode are arguments with a decoding law | byte-level induction, equality of the two commitment routes inside indexer and prover, congruence of the verifier in what reduction keeps | proved |
| C66 | Honest anonymous operations are accepted end to end | End | nothing new: the circuits, the builders, the verifiers, PLONK with its parameters and the stored files are put together | honest runs keep the circuit satisfied (invariant of the builders), padding keeps it, C22 turns satisfaction into an accepted proof, C63 identifies the circuits, C65 identifies the parameters | proved |
| C67 | Text and byte encodings of keys, points, ciphertexts and amounts round-trip and are exact | Ser | base64url codec, the serde visitor over the values of a format, decimal amounts and the byte codecs of every exported object | the six-bit regrouping is inverted by induction on groups; alphabet by computation on its 64 letters; codecs by cases on lengths | partial |
| C68 | Owner memos written by this and by earlier versions are read back | Memo | the hand-written Deserialize of owner memos with its untagged compatibility enums, over the values of Ser | the field loop is shown equivalent to a sorted-out list of entries, which is a permutation invariant; panics by cases | partial |
| C69 | The signed bytes of a transfer determine its body, and stored notes are read back | Pack | MessagePack encoder and decoder, the derived serialization of transfer notes by combinators, and the signing of transfer bodies | a prefix-free round trip by induction on nested values, then a round-trip law for each combinator and each type | proved |
| C70 | No history of anonymous notes pays out more than was paid in | Hist | histories of sound events over an arbitrary hash and field, the ledger checks on commitments, roots and nullifiers, and the verifiers of Note with the circuits of Setup | each spend is located at a leaf of an earlier tree by walking down its path, distinct nullifiers give distinct leaves, a permutation argument gives the sums; accepted notes are turned into events by C56 and C63 | partial |
| C71 | Converting between confidential and anonymous records creates no value | HistConf | the ledger of C70 with the notes of bar_to_abar.rs and abar_to_bar.rs, four rewound runs per conversion and the known openings of the confidential records | the responses open the commitments (C64); if that opening is not the known one, the difference is a relation between the generators, otherwise the conversion is a shielding or unshielding event and C70 applies | partial |
| C72 | The records behind an accepted anonymous note are determined by positions in its proof's assignment | Wire | the circuits of C56, C58 and C64 with the positions at which their variables are created | the variables of witnesses are created first, so their positions are computed; soundness of the rest of each circuit is then stated about the values at these positions | partial |
| C73 | No history of transparent and confidential transfers creates value | Xhist | the batch verifier of C09 and C10 and what C18 shows of a mix; the ledger (issue, consume, create) is described in XhistSpec.v | induction over the history: each accepted transfer keeps the invariant that unspent records are worth 64-bit amounts and together no more than was issued, by C09, C10 and C18; the openings of created records are read off the extracted openings; the unlimited claim is refuted by a mix of one record | partial |
| C74 | Transfer keys can be compared, sorted and used as keys of maps | Kord | comparison and hashing of keys through their encodings; a hasher is the list of strings written to it | lexicographic order on byte strings, and the injectivity of the encodings (C47) | proved |
| C75 | Identity policies are enforced | Trace | identity proofs of transfers under tracing policies | inversion of the verifier, slot by slot | proved |

## 3. What is proved for each property

A theorem named `_partial` carries a guard the English property does not have; a
theorem named `_refuted` exhibits a case in which the English property is false of
the code.

| id | theorems | what is proved, what is missing |
|---|---|---|
| C01 | `C01_membership_proofs_verify`, `C01_absent_ids_refused` | all histories within capacity, any hash |
| C02 | `C02_root_is_abstract_root` | refinement to the abstract 3-ary tree |
| C03 | `C03_proof_binds_leaf` | the collision is explicit: a triple of the path against the triple of the tree |
| C04 | `C04_crash_recovers_last_commit`, `C04_failed_commit_desynchronises_refuted` | holds when the store accepts commits; a refused commit leaves the counter ahead of the store |
| C05 | `C05_versions_are_immutable`, `C05_immutable_tree_reads_last_commit` | storage crate versions assumed unlimited |
| C06 | `C06_get_leaf_refuted`, `C06_get_leaf_partial` | false of the code: get_leaf uses the id as a node key |
| C07 | `C07_reduced_depth_partial`, `C07_guard_off_by_one_refuted`, `C07_immutable_reduced_depth_refuted` | holds for the mutable tree and id < 3^depth; false for id = 3^depth and for the immutable tree |
| C08 | `C08_full_tree_refuted` | false of the code: no capacity check |
| C09 | `C09_plain_transfer_conserves`, `C09_plain_transfer_conserves_in_batch` | iff over unbounded integers, also inside any batch; amounts are u64, fewer than 2^62 records |
| C10 | `C10_confidential_transfer_creates_no_value`, `C10_confidential_types_agree`, `C10_plain_types_agree`, `C10_plain_amounts_balance` | relative to a knowledge extractor for range/equality proofs; alternative is an explicit discrete-log relation computed from openings |
| C11 | `C11_burning_transfer_accepted_refuted`, `C11_built_transfers_conserve_partial` | false of the verifier (accepted burning transfer exhibited); true for bodies made by the builder |
| C12 | `C12_kind_matches_records`, `C12_kind_defined`, `C12_built_proof_matches_records`, `C12_record_flags_roundtrip` | as stated |
| C13 | `C13_builder_balances_partial`, `C13_builder_accepts_balanced`, `C13_fee_unchecked_refuted` | false as stated: with no fee-type record the fee is not checked; proved for all other types always, and for the fee type when some record has it |
| C14 | `C14_full_circuit_forgery_refuted`, `C14_circuit_conserves_partial`, `C14_any_values_satisfiable_refuted`, `C14_value_created_refuted` | false as stated: variables 0 and 1 are unconstrained, so any amounts satisfy the constraints; proved for assignments with variable 0 = 0 and variable 1 = 1 |
| C15 | `C15_builder_accepted_provable_partial`, `C15_accepted_but_unprovable_refuted` | false as stated in three ways; proved with the three side conditions |
| C16 | `C16_duplicate_inputs_accepted_refuted`, `C16_double_spend_exposed_partial` | false as stated: the same record twice is accepted by builder, circuit and verifier; proved: two spends of one tree position publish the same nullifier or exhibit an explicit hash collision |
| C17 | `C17_field_totals`, `C17_integer_totals` | Soundness over challenge grids: if a mix with as many outputs as inputs (at least two) is satisfiable for every choice of challenges in a set S larger than 4n^2, then per-type totals agree, over the integers. |
| C18 | `C18_no_inflation`, `C18_outputs_in_range`, `C18_one_input_refuted`, `C18_one_output_refuted`, `C18_more_outputs_refuted`, `C18_more_inputs_lose_value_refuted` | True for 2 <= outputs <= inputs (C18_no_inflation), and outputs are always 64-bit. Refuted as stated: one record on a side, or more outputs than inputs, creates value. |
| C19 | `C19_sort_is_permutation`, `C19_sort_groups_types`, `C19_merge_totals`, `C19_honest_mix_is_satisfied`, `C19_honest_integer_mix`, `C19_honest_mix_is_accepted`, `C19_generators_exact`, `C19_single_record_count_panics`, `C19_type_mismatch_is_an_error` | Sorting, merging and the honest gadget; generator count exact for two or more records on each side and panicking for one. |
| C20 | `C20_commit`, `C20_honest_opening`, `C20_degree_refused`, `C20_exact`, `C20_no_panic`, `C20_wrong_value_yields_secret`, `C20_two_values_break`, `C20_shrink`, `C20_blinding` | Honest openings, exact acceptance, wrong value or two values extract the setup secret / an SDH solution |
| C21 | `C21_valid_accepted`, `C21_fixed_openings_partial`, `C21_two_points`, `C21_bad_lengths_panic`, `C21_forged_openings_refuted`, `C21_batch_honest`, `C21_batch_values_unbound_refuted`, `C21_batch_truncation_refuted` | Acceptance for as many challenges as openings implies all openings; the full property is refuted: openings chosen after the challenge are forgeable |
| C22 | `C22_group`, `C22_group_refused`, `C22_honest`, `C22_lagrange_parameters`, `C22_choose_ks`, `C22_equation_sound`, `C22_verifier_exact`, `C22_forged_openings_refuted`, `C22_four_commitments_refuted`, `C22_malformed_panics_refuted`, `C22_extra_inputs_refuted`, `C22_missing_inputs_refuted`, `C22_bls_honest`, `C22_cosets_collide_refuted` | Honest proofs are accepted for every satisfying assignment (also instantiated at BLS12-381 for all padded sizes up to 2^28), the verifier's decision on truthful proofs is exactly its equation, and the equation at enough challenges yields a satisfying assignment when the coset representatives are in distinct cosets. Refuted beyond that: the indexer does not ensure distinct cosets, the openings are forgeable after the last challenge, and the number of witness commitments and of public inputs is not checked, so proofs without a witness are accepted. |
| C23 | `C23_exact`, `C23_ordinate_refuted`, `C23_total_forgery_refuted`, `C23_same_constraints`, `C23_public_key_refuted`, `C23_honest_partial`, `C23_prover_panics`, `C23_secp_forgery_refuted`, `C23_commitments` | Refuted: the constraints of point_add_constant never use the ordinate of the left point, so any coordinates are accepted as public key of any secret with at least three set bits (C23_total_forgery_refuted, for the code's field C23_secp_forgery_refuted). Proved: the exact meaning of the verifier's constraints (C23_exact), prover and verifier build the same constraints, the honest prover is accepted or panics exactly as described. Missing: soundness, which is false. |
| C24 | `C24_grant`, `C24_grant_wrong_number`, `C24_grant_valid`, `C24_disclosure_accepted`, `C24_open_credential_accepted`, `C24_commitment_accepted`, `C24_commit_without_randomizer`, `C24_api_accepted`, `C24_wrong_map_refused`, `C24_revealed_attributes`, `C24_oversized_panics` | Issuance, commitment and every selective disclosure accepted for every number of attributes, reveal map and randomness; also through the u32 api. |
| C25 | `C25_exact`, `C25_no_panic`, `C25_missing_responses_refused`, `C25_special_soundness`, `C25_signature_is_issued`, `C25_identity_refuted`, `C25_identity_api_refuted`, `C25_late_attributes_refuted`, `C25_extra_attributes_refuted` | Refuted as stated: the identity commitment is accepted with any attributes, the revealed attributes are not hashed, extra claimed attributes are ignored. Proved: exact acceptance, special soundness with explicit extraction, and equality of an extracted signature with an issued one. |
| C26 | `C26_disclosure_accepted`, `C26_count_mismatch_refused`, `C26_special_soundness`, `C26_identity_refuted` | Honest disclosures accepted with correct decryption, counts enforced, special soundness with decryption; refuted for the identity commitment, which discloses unsigned attributes. |
| C27 | `C27_honest_accepted`, `C27_exact_acceptance`, `C27_false_row_one_draw`, `C27_special_soundness`, `C27_wrong_length_panics` | completeness, exact acceptance over the verifier's draws, one bad draw per false row, explicit extractor |
| C28 | `C28_prover_succeeds`, `C28_honest_accepted`, `C28_single_accepted`, `C28_batch_is_conjunction`, `C28_special_soundness`, `C28_each_pair`, `C28_message_unique`, `C28_length_mismatch_panics`, `C28_weights_are_drawn`, `C28_any_weights`, `C28_every_pair_is_tied`, `C28_tied_pairs_are_answered` | honest single/aggregate/batch acceptance, batch = conjunction, explicit extractor for the combination, and from it for every pair (the weights are shown to be drawn challenges, free except for the first), uniqueness; tied pairs can always be answered |
| C29 | `C29_honest_accepted`, `C29_honest_batch_accepted`, `C29_batch_is_conjunction`, `C29_first_two_share_value`, `C29_rest_differ_by_blinding`, `C29_each_shares_value`, `C29_too_few_refused`, `C29_too_few_batch_refuted`, `C29_wrong_shape_refused`, `C29_weights_are_drawn`, `C29_any_weights`, `C29_all_share_one_value`, `C29_one_value_is_answered` | completeness, batch = conjunction and extraction of one value for all commitments proved; the batch verifier panics on fewer than two commitments (refuted part) |
| C30 | `C30_honest_accepted`, `C30_exact_acceptance`, `C30_extraction`, `C30_inspected_values_committed`, `C30_inspection_consistent`, `C30_malformed_rejected_refuted` | completeness, exact acceptance, extraction and inspected values proved; malformed lengths panic (refuted part) |
| C31 | `C31_sum_of_multiples_partial`, `C31_800_scalars_refuted`, `C31_digits` | Correct for fewer than 800 scalars and all points (C31_sum_of_multiples_partial); with 800 or more every call panics (C31_800_scalars_refuted). |
| C32 | `C32_sixteen_terms_partial`, `C32_general_position_partial`, `C32_repeated_point_refuted` | Correct for at most 16 non-zero scalars, and for any number of points in general position; refuted in general: 18 copies of a point are added up wrongly. |
| C33 | `C33_range_check_satisfiable_iff`, `C33_range_check_bits`, `C33_range_check_bits_any_length` | Satisfiability iff and uniqueness of the bits over any prime field; 2^n <= field size for uniqueness. |
| C34 | `C34_gadgets_compute_partial`, `C34_arithmetic_gadgets_compute`, `C34_gadgets_complete`, `C34_equal_unanchored_refuted`, `C34_is_equal_unanchored_refuted` | All gadgets proved under the convention variable0=0, variable1=1; the unconditional statement is refuted for equal/is_equal because the constraint system never pins these two variables (TurboCS::new inserts no gates). Arithmetic gadgets proved without the convention; completeness proved. |
| C35 | `C35_accepted_is_smaller_partial`, `C35_smaller_is_accepted`, `C35_variable_zero_refuted`, `C35_key_check_partial`, `C35_key_check_complete` | false as stated when variable 0 is not zero (nothing constrains it); proved for variable 0 = 0, and complete; also for the key check with the secp256k1 order |
| C36 | `C36_total`, `C36_out_of_range_panics`, `C36_bijection`, `C36_cycles`, `C36_copy_constraints` | Bijection whose cycles are the variable classes; copy constraints equivalent |
| C37 | `C37_padding_preserves_witnesses`, `C37_verify_witness_iff_gates`, `C37_public_input_binds`, `C37_verify_witness_ignores_booleans_refuted`, `C37_gate_is_linear_in_selectors` | padding proved; witness verification accepts iff all gate equations hold, but it ignores attached boolean constraints (refuted) |
| C38 | `C38_coefficient`, `C38_curve_is_a_group`, `C38_addition`, `C38_selection`, `C38_base_multiples`, `C38_multiplication_by_bits`, `C38_scalar_multiplication_partial`, `C38_scalar_multiplication_any_length`, `C38_scalar_multiplication_honest`, `C38_refused_lengths`, `C38_long_scalars_refuted` | proved for scalars of at most 254 bits and exactly characterised for all lengths; refuted for longer scalars (256 bits, as the crate's test uses): a scalar then has two satisfying outputs |
| C39 | `C39_gadget_outputs_native_hash`, `C39_gadget_completes` | soundness for every satisfying assignment and completeness of the honest run, over any surrounding system |
| C40 | `C40_round_key_forms_agree`, `C40_keyed_bijection`, `C40_rescue_bijection` | textbook keyed form against the code's two forms; bijectivity for every key |
| C41 | `C41_trace_output_is_hash`, `C41_flow_relation_characterises_trace`, `C41_constants_consistent`, `C41_declared_degree_refuted` | the relation has degree 5; the declared constant ALPHA = 7 is refuted as its degree |
| C42 | `C42_forged_zero`, `C42_circuit_sound_refuted`, `C42_round_trip`, `C42_round_trip_iff`, `C42_into`, `C42_subtraction`, `C42_subtraction_unreduced`, `C42_multiplication`, `C42_sum_of_products`, `C42_product_minus_element`, `C42_zero_check`, `C42_native_computation`, `C42_witness`, `C42_bounded_witness_partial`, `C42_constant`, `C42_input_unconstrained`, `C42_circuit_sound_partial`, `C42_circuit_complete`, `C42_product_circuit_sound_partial`, `C42_product_circuit_complete` | Conversions, subtraction, multiplication, sums and the native zero check are proved exactly for both parameter sets; any computation built from them; circuit soundness for every computation (needs variable zero to be zero, which the constraint system never enforces; without it the statement is refuted by a complete forged assignment, C42_circuit_sound_refuted), honest completeness, and the meaning of every allocation. Integers of more than six limbs do not round-trip. |
| C43 | `C43_eval`, `C43_coefficients`, `C43_homomorphism`, `C43_normal_forms`, `C43_normal_form_unique`, `C43_division`, `C43_division_unique`, `C43_division_by_zero_refuted`, `C43_from_zeroes`, `C43_add_coef`, `C43_is_zero`, `C43_is_zero_empty_refuted` | Coefficient-exact add/sub/neg/scale/substitute/add_coef, evaluation homomorphism, normal forms, division with remainder (existence, uniqueness), product of linear factors. FpPolynomial has no multiplication method. Refuted part: division by a polynomial with zero leading coefficient and is_zero of an empty vector panic. |
| C44 | `C44_fft_values`, `C44_coset_fft_values`, `C44_interpolation`, `C44_ifft_fft`, `C44_coset_ifft_fft`, `C44_fft_ifft`, `C44_unsupported_panics`, `C44_degree_n_refuted`, `C44_size_2_32_refuted`, `C44_root_primitive`, `C44_no_root`, `C44_bls_fft`, `C44_oversize_refuted` | All sizes 2^k and 3*2^k: values in order, interpolation and uniqueness, both round trips, coset versions, primitive root from the generator, BLS12-381 instance with generator 7. Refuted: a polynomial with 2n coefficients is accepted for size n and returns 2n wrong numbers; degree exactly n panics; size 2^32 panics in the inverse. |
| C45 | `C45_memo_round_trip`, `C45_wrong_length_rejected`, `C45_accepted_memo_opens_record`, `C45_opening_unique`, `C45_finalize_once`, `C45_build_requirements` | For an arbitrary Diffie-Hellman suite and cipher: the memo round trip, rejection of wrong lengths, accepted memos open the published commitment, and two openings of one commitment give an explicit hash collision. |
| C46 | `C46_hybrid_x25519_round_trip`, `C46_lengths_preserved`, `C46_hybrid_is_malleable`, `C46_hybrid_bytes`, `C46_transfer_key_round_trip`, `C46_transfer_key_encrypts`, `C46_addresses_and_short_locks_panic`, `C46_scalar_conversion`, `C46_each_byte_has_its_own_mask`, `C46_repeated_randomness_reveals`, `C46_elgamal_round_trip`, `C46_elgamal_verify_exact` | ElGamal and hybrid encryption (X25519, Ed25519 and Secp256k1 transfer keys) round-trip and preserve lengths; malleability and the panics for address keys and short locks are proved as findings |
| C47 | `C47_round_trips`, `C47_accepted_strings`, `C47_canonical_partial`, `C47_not_canonical_refuted`, `C47_equality_is_of_keys`, `C47_keypair_decoding_refuted` | round trips and the exact set of accepted strings are proved; canonicity is false as stated (refuted: unknown key types, padding, legacy lengths) and proved for strings in the current format |
| C48 | `C48_single_signatures`, `C48_recovery_id_is_malleable`, `C48_honest_in_any_order`, `C48_acceptance_exact` | any order, exact matching of keys and signatures, refusal of other lengths, for every correct sort |
| C49 | `C49_transfer_batch_partial`, `C49_unshield_batch_partial`, `C49_to_confidential_batch_partial`, `C49_from_confidential_batch_partial`, `C49_shield_batch`, `C49_short_vectors_accept_anything_refuted`, `C49_bad_note_in_batch_refuted` | Exact for batches with one vector; for the others exact when the vectors have one length. Refuted in general: lengths are not compared, so empty vectors of roots, hashes or keys accept any notes. |
| C50 | `C50_template_records`, `C50_amount_check`, `C50_type_check`, `C50_type_search`, `C50_type_found`, `C50_attribute_check`, `C50_library_records`, `C50_honest_proofs_made`, `C50_honest_transfers_accepted`, `C50_honest_transfers_are_traced_partial`, `C50_identity_only_policy_refuted`, `C50_verifier_reads_only_checked_slots`, `C50_silent_transfers_refuted`, `C50_false_values_refuted`, `C50_malicious_memo_panics`, `C50_blocked_tracing_refuted`, `C50_checked_locks`, `C50_checked_memos_tell_the_truth` | Honest transfers are accepted and traced exactly; every checked lock is bound to its commitment and read back truthfully. The full claim is refuted: the verifier never reads the key or the plaintext of a memo, so accepted transfers can hide from, block, crash or misinform the tracer, and a policy that traces only identities makes tracing of a hidden record fail. |
| C51 | `C51_opens_to_what_was_built`, `C51_built_records_are_consistent`, `C51_blindings_are_separate`, `C51_building_succeeds`, `C51_address_keys_panic`, `C51_malformed_memos`, `C51_bad_share_panics`, `C51_commitments_are_not_checked`, `C51_blinding_inputs_differ`, `C51_labels_differ` | Every record that can be built opens to the opening it was built from, for all four types. Building succeeds for Ed25519 and Secp256k1 keys and panics for address keys. Opening does not compare the memo with the commitments, and a malformed share makes it panic. |
| C52 | `C52_secret_key_packing_injective`, `C52_public_key_packing_injective`, `C52_commitment_binding`, `C52_nullifier_binding` | asset types enter through their scalar; equality of hashes gives an explicit collision |
| C53 | `C53_byte_slices_exact`, `C53_u64_split_exact`, `C53_shift_halves`, `C53_limbs_to_bytes`, `C53_bytes_to_limbs`, `C53_limbs_round_trip`, `C53_power_of_two_partial`, `C53_power_of_two_refuted` | every helper exact on its domain except the rounding to a power of two, which is wrong at 0 and above 2^31 (refuted); base64 and file helpers not modelled |
| C54 | `C54_big_integers_partial`, `C54_big_integers_refuted`, `C54_decoding_exact`, `C54_round_trip`, `C54_canonical_decoding_partial`, `C54_decoding_refuted`, `C54_unreduced_scalars`, `C54_integer_round_trip`, `C54_field_sizes` | refuted for Ristretto (From<&BigUint> panics whenever the remainder is below 2^248, in particular for every u64) and for decoding in all five fields; exact decoding, round trips, injectivity on canonical encodings, field sizes proved |
| C55 | `C55_split_recombines`, `C55_split_sizes`, `C55_hiding`, `C55_hiding_covers` | Chunks recombine at every point for all random values, sizes fit, hiding changes nothing on the group. |
| C56 | `C56_shield_accepts_exactly`, `C56_hidden_records_are_refused`, `C56_unshield_accepts_exactly`, `C56_shield_creates_what_it_consumes_partial`, `C56_unshield_spends_what_it_creates_partial`, `C56_honest_shield_is_provable`, `C56_honest_unshield_is_provable`, `C56_unshield_owner_unbound_refuted` | Acceptance characterised exactly; with an extractable proof system a shielding note creates, and an unshielding note spends, the amount and type it shows, provided variable 0 is fixed at zero; honest notes are provable. Refuted: the output owner of an unshielding note is bound only through the caller-supplied hash. |
| C57 | `C57_honest_transfer_verifies` | relative to complete proof systems |
| C58 | `C58_accepted_assignment_is_a_transfer_partial`, `C58_honest_transfer_is_provable` | soundness proved for assignments with variable 0 = 0 and variable 1 = 1 (false otherwise, see C14); completeness proved; address folding is an arbitrary gadget |
| C59 | `C59_recovery_ids` | for all v |
| C60 | `C60_reveal_challenge_binds`, `C60_commitment_challenge_binds`, `C60_confidential_challenge_binds`, `C60_conversion_challenges_bind`, `C60_plonk_challenges_bind`, `C60_plonk_key_bound_refuted`, `C60_sigma_challenge_binds`, `C60_ciphertext_challenges_bind`, `C60_equality_challenges_bind`, `C60_delegated_challenges_bind` | proved for plain sigma proofs, ciphertext equality, equality of many commitments, delegated Schnorr, credential commitments and confidential disclosure; the attributes revealed by a plain disclosure are not hashed (C25_late_attributes_refuted), nor are three fields of the PLONK verifier parameters; everything else of these two is bound |
| C61 | `C61_limbs_partial`, `C61_limbs_refuted`, `C61_powers` | limbs proved for four fields and refuted for secp256k1 (always panics); powers proved with the exact panic condition |
| C62 | `C62_circuit_sound_partial`, `C62_commitment_binding`, `C62_three_lambdas`, `C62_two_lambdas_insufficient`, `C62_two_betas`, `C62_statement_opens`, `C62_extraction`, `C62_honest_never_panics`, `C62_honest_prover_accepted`, `C62_gadget_is_the_code`, `C62_transfer_sound_partial`, `C62_transfer_complete`, `C62_transfer_forgery_refuted`, `C62_honest_keys_exist` | Soundness holds for assignments with zero in variable 0 (which nothing enforces, see C14) and leaves the coordinates below 2^256 rather than below the modulus; binding, extraction, totality and completeness are proved in full. |
| C63 | `C63_from_shape`, `C63_to_shape`, `C63_setup_conf_never_panics`, `C63_setup_fits_conf`, `C63_setup_conf_extractable`, `C63_setup_conf_complete`, `C63_folding_shape`, `C63_transfer_shape`, `C63_shield_shape`, `C63_unshield_shape`, `C63_setup_folding_never_panics`, `C63_setup_fits_transfer`, `C63_setup_fits_shield_unshield`, `C63_setup_transfer_complete`, `C63_setup_transfer_sound_partial`, `C63_setup_extractable` | Proved for all five circuits with the real folding gadget; soundness for the parameters' circuit carries the proviso of C14 (variables 0 and 1 hold zero and one), hence partial. |
| C64 | `C64_from_circuit_sound_partial`, `C64_to_circuit_sound_partial`, `C64_state_binding`, `C64_committed_values`, `C64_undecodable_is_error`, `C64_accepted_from_partial`, `C64_accepted_to_partial`, `C64_extraction`, `C64_carried_value`, `C64_from_extraction_partial`, `C64_to_extraction_partial`, `C64_from_honest_accepted`, `C64_to_honest_accepted`, `C64_malformed_proof_panics_refuted`, `C64_verifiers_never_panic_partial`, `C64_output_halves_bound_refuted` | Proved for assignments with zero in variable 0 (see C14): circuit soundness for both directions, accepted notes, extraction, honest notes. Refuted: malformed proofs are rejected (they panic); the halves and owner of a confidential output are bound by the proofs (only the caller's hash binds them). |
| C65 | `C65_srs_round_trip`, `C65_srs_accepted`, `C65_truncated_srs`, `C65_lagrange_loaded`, `C65_lagrange_absent`, `C65_lagrange_undecodable`, `C65_lagrange_same_parameters`, `C65_lagrange_same_proof`, `C65_shrink_same_verdict`, `C65_shrink_total`, `C65_load_is_create`, `C65_files_generated`, `C65_load_one_is_create`, `C65_load_range` | The encodings of single group elements and bincode are parameters with the law that decoding undoes encoding. |
| C66 | `C66_transfer`, `C66_shield`, `C66_unshield`, `C66_confidential_to_anonymous`, `C66_anonymous_to_confidential` | all five operations; the conditions on the reference string, Lagrange bases and challenges are in the definition fits, the one failure in unlucky |
| C67 | `C67_text_round_trip`, `C67_text_canonical_partial`, `C67_text_unique_refuted`, `C67_formats`, `C67_vectors`, `C67_amounts`, `C67_objects_round_trip`, `C67_accepted_bytes`, `C67_no_panic_partial`, `C67_wrong_length_panics_refuted`, `C67_unchecked_refuted` | proved as stated for every codec except: uniqueness of texts fails for padding; decoding compressed Curve25519 points and ElGamal ciphertexts panics on wrong lengths; trailing bytes and inconsistent key pairs are accepted |
| C68 | `C68_round_trip`, `C68_maps_read`, `C68_field_order`, `C68_earlier_maps`, `C68_earlier_sequences_refuted`, `C68_malformed_share_panics_refuted`, `C68_no_panic_partial` | memos of earlier versions as sequences are refused and an earlier share of a wrong length panics; everything else proved |
| C69 | `C69_messagepack`, `C69_signed_bytes_determine_body`, `C69_stored_notes`, `C69_signatures_cover_body`, `C69_owners_signatures_accepted`, `C69_encodings` | Notes and bodies of every shape; points, scalars, keys and proofs through faithful byte encodings, which C69_encodings gives for the library's types (range and R1CS proofs: any faithful encoding). |
| C70 | `C70_accepted_note_is_an_event_partial`, `C70_pool_never_pays_out_more_partial`, `C70_honest_ledger`, `C70_no_history_creates_value_partial`, `C70_spends_earlier_records`, `C70_second_secret_refuted` | proved for every history, with one secret key per public key (otherwise refuted by C70_second_secret_refuted, the circuits allow it, C23) and with the constants in variables 0 and 1 (C14); unless the hash fails on inputs met in the history |
| C71 | `C71_accepted_moves_have_findings_partial`, `C71_conversions_create_nothing_partial`, `C71_honest_ledger` | One secret key per public key (C23) and constants in variables 0 and 1 (C14) are needed; zero is not enforced by the constraint system. The statement speaks of the openings anybody knows of the confidential records, and of the responses of four runs per conversion. |
| C72 | `C72_from_partial`, `C72_to_partial`, `C72_shield_partial`, `C72_unshield_partial`, `C72_transfer_partial`, `C72_accepted_note_partial`, `C72_explicit_history_partial`, `C72_honest_ledger` | Proved for assignments with the constants 0 and 1 in variables 0 and 1, which the circuits do not enforce by themselves (C42); the history theorem also assumes one secret key per public key (C23). |
| C73 | `C73_no_history_creates_value_partial`, `C73_unspent_amounts_partial`, `C73_transparent_ledger_exact`, `C73_accepted_transfers_continue`, `C73_mix_establishes`, `C73_limbs_open_the_whole`, `C73_mix_of_one_record_creates_value_refuted` | all kinds of transfers, with confidential multi-asset mixes limited to two or more outputs and no more outputs than inputs; without that limit the claim is refuted end to end |
| C74 | `C74_public_keys_are_lawful`, `C74_secret_keys_are_lawful`, `C74_order_is_the_signing_order` | the laws of Eq, Ord, PartialOrd and Hash for public and secret transfer keys of every kind; the order is the one multi-signatures are sorted in |
| C75 | `C75_building_checks_identities`, `C75_building_without_identities`, `C75_every_transfer_has_valid_policies`, `C75_identity_policies_are_enforced` | The verifier of identity proofs is a parameter of the model here; what it accepts is the subject of C25 and C26. The builder does not refuse a missing opening where an identity is asked for (C75_building_case): transfers with such a record are refused later. |

## 4. Findings

Each item is backed by a theorem (mostly named `_refuted`) about the model.

* **TurboCS** (`plonk/src/plonk/constraint_system/turbo.rs` 241-262).  Variables 0
  and 1 stand for zero and one but no gate constrains them.  Consequences: the
  anonymous-transfer circuit is satisfiable for unbalanced transfers (C14), the
  secret-key comparator for non-canonical keys (C35), the equality gadgets for
  unequal values (C34); circuit soundness of field simulation (C42), shielding
  notes (C56) and the transfer proof (C58) is proved for assignments with the
  intended constants.  `verify_witness` ignores attached boolean constraints (C37).
* **Scalar-multiplication proof** (C23).  `point_add_constant` never uses the
  ordinate of its left argument and lacks the chord equation, so any coordinates
  are accepted as public key of any secret with at least three set bits.  The
  verifier panics with fewer than three commitments, the prover on collisions of
  abscissas.
* **PLONK** (C21, C22).  The opening challenge is drawn before the opening proofs
  are hashed, which makes openings forgeable; the number of witness commitments is
  not checked; `choose_ks` does not ensure distinct cosets; the transcript omits
  `cm_qb` and the public-input indices; malformed evaluation vectors panic.
* **Confidential mix** (C18).  A side with a single record is unconstrained and pad
  variables are unconstrained when there are more outputs than inputs: value can be
  created.  `asset_mix_num_generators` underflows for a single record.
* **Merkle tree** (C04, C06, C07, C08).  No capacity check; `get_leaf` uses the id
  as a node key; proofs at depth d fail for id 3^d and on immutable trees; a refused
  commit leaves the counter ahead of the store.
* **Transparent and confidential transfers** (C11).  Confidential single-asset
  bodies may burn value.
* **Anonymous transfers** (C13, C15, C16, C49, C56).  The fee is not checked when no
  record has the fee type; the same record may be spent twice in one note; batch
  verifiers zip their vectors and silently skip notes; an unshielding note binds its
  output owner only through the caller's hash; uids are not range-checked.
* **Credentials** (C25, C26).  The identity commitment is accepted with any
  attributes, revealed attributes are not hashed, surplus attributes are ignored.
* **Tracing** (C50).  The verifier never reads the encryption key or plaintext of
  tracer memos: accepted transfers can hide from, block, crash or misinform the
  tracer.
* **Keys, signatures, encryption** (C46, C47, C48, C51).  Decoding is not canonical;
  key-pair decoding panics below 33 bytes and does not compare the keys; recovery
  ids are ignored; X25519/Ed25519 hybrid encryption is malleable; address keys panic
  in encryption; opening a record does not check its commitments.
* **Scalars** (C54, C61).  `RistrettoScalar::from(&BigUint)` panics below 2^248;
  decoding is not injective in any of the five fields; limbs of secp256k1 scalars
  always panic; `pow` panics for exponents longer than the field's limbs.
* **Multi-exponentiation** (C31, C32).  800 scalars or more always panic in the
  generic routine; the bucketed routine is wrong for repeated points (18 copies).
* **Jubjub circuits** (C38).  Scalars of 255 bits or more have two satisfying
  outputs.
* **Field simulation** (C42).  Integers above six limbs lose their high digits and
  the conversion back panics; public elements are unconstrained; subtracting an
  unreduced element panics; a surfeit of 32 or more panics.
* **Jive** (C41).  The declared exponent 7 is not the exponent in use (5).
  **Utils** (C53): rounding to a power of two is wrong at 0 and above 2^31.
  **Polynomials** (C43, C44): division by a polynomial with zero leading
  coefficient panics; FFT accepts 2n coefficients for size n with wrong results.
  **Sigma proofs** (C27-C30): malformed lengths panic.
* **Conversion notes** (C60, C64).  A malformed delegated Schnorr proof panics the
  verifier; the halves and the owner of a confidential output are bound only through
  the caller's hash, and the halves are not range-checked by the circuit.
* **Parameters** (C65).  A truncated parameter file panics instead of giving an error
  once its two counts are present; `VerifierParams::load` with no inputs or no outputs
  panics; bytes after the reference string are ignored.
* **Encodings** (C67, C68).  Decoding Ristretto points, compressed Curve25519 points or
  ElGamal ciphertexts from a string of the wrong length panics, also from JSON; base64
  padding is optional when reading; arkworks points and bare X25519 keys ignore
  trailing bytes; an anonymous key pair is accepted with another public key.  Owner
  memos of earlier versions stored as sequences (rmp_serde's default) are refused in
  spite of the compatibility code, and a malformed earlier share panics.
* **Histories** (C70, C73).  An accepted confidential mix with one output turns a
  record of one unit into a record of any 64-bit amount, so a ledger that follows the
  transfer verifier can be inflated (C73, end to end).  The second secret key of C23 is a double spend: the nullifier
  hashes the secret key, so the same record is spent under two nullifiers and twice its
  value leaves the pool.
* **Extraction** (C25, C26, C29, C64, C71).  In a group of prime order every element has
  some opening, so "there is an opening" says nothing.  These theorems name the opening:
  it is computed from the challenges and responses of the accepted runs.  In the same
  way every field element is some hash value, so "there is a record with this
  commitment" says little; C72 names the record by its position in the assignment.

## 5. Trusted base

* Coq 8.16.1's kernel (checked again by `coqchk`).  `vm_compute` is used for
  computations on literals; `coqchk` repeats them by ordinary reduction, without the
  virtual machine.
* No axioms of our own.  `Print Assumptions` is run on every property theorem in
  the `Props` files and answers "Closed under the global context" for all of them.
  `coqchk` lists seven axioms that come with the standard library's ssreflect
  plugin files (`Coq.ssr.ssrunder.Under_rel.Under_rel`, `.Under_rel_from_rel`,
  `.Under_relE`, `.Over_rel`, `.over_rel`, `.over_rel_done`, `.under_rel_done`:
  fields of the functor argument of that library module); they are loaded because
  `Primality.v` uses mathcomp and no theorem depends on them.
* The reading of the Rust code: the model is tied to it only by citation.
* The properties as stated in `properties.jsonl`.

## 6. What is modelled and what is not

Modelled, function by function (file headers and definition comments give lines):
`accumulators/src/merkle_tree.rs`; `algebra/src/{utils,traits,bls12_381 (msm,
scalars),ristretto,jubjub,secq256k1,secp256k1}.rs` as far as scalars and
multi-exponentiation go; `crypto/src/{anon_creds,confidential_anon_creds,
delegated_schnorr,field_simulation}.rs`; `crypto/src/basic/{chaum_pedersen,elgamal,
hybrid_encryption,jive,matrix_sigma,pedersen_elgamal,rescue}.rs`;
`crypto/src/bulletproofs/{mix,scalar_mul}.rs`; `plonk/src/plonk/*` and
`plonk/src/plonk/constraint_system/*`; `plonk/src/poly_commit/*`;
`api/src/xfr/*`, `api/src/anon_xfr/{mod,abar_to_abar,ar_to_abar,abar_to_ar,
bar_to_abar,abar_to_bar,keys,structs,address_folding}.rs`, `api/src/anon_creds.rs`;
`api/src/setup.rs` (circuits, creation, storage and loading of parameters) and the
verifier-key files of `api/src/gen-params.rs`; `{algebra,api}/src/serialization.rs`, the
serialization macro of `algebra/src/lib.rs`, the hand-written `Deserialize` of owner
memos and the derived forms of transfer notes (base64, serde, serde_str and rmp by
their documented behaviour).

Not modelled:
* external crates: curve25519-dalek, ark-*, bulletproofs, merlin, ed25519-dalek,
  libsecp256k1, aes, sha2, the storage crate; they are parameters with the laws
  stated in the theorems (the Jacobian formulas of ark-ec used by `msm_unsafe` are
  modelled from the public formulas);
* probability and running time: no statement about adversaries' success
  probability, only algebraic extraction;
* the text syntax of JSON, bincode, the bytes of Bulletproofs proofs, the command line
  of the parameter generator, benchmarks, wasm bindings;
* debug assertions and overflow checks (the release profile has neither) except
  where a comment says so;
* concurrency: the library has no shared mutable state besides caches of
  parameters (`lazy_static`), which are not modelled.

## 7. Testing the theorems

`seeded/LOG.jsonl` records one line per seeded bug: the definition edited in a
scratch copy, the edit, the claim it breaks and the theorems that failed to prove.
Surviving edits led to the tightened theorems listed there.
