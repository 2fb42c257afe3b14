{
 "claims": [
  {
   "property": "C01",
   "status": "proved",
   "theorems": [
    "C01_run_computes_brainfuck",
    "C01_outcome_unique"
   ],
   "note": "For every width 0..63, both build profiles."
  },
  {
   "property": "C02",
   "status": "proved",
   "theorems": [
    "C02_panics_iff_program_fails"
   ],
   "note": "Empty programs are excluded (the interpreter indexes code[0])."
  },
  {
   "property": "C03",
   "status": "proved",
   "theorems": [
    "C03_diverges_iff_program_does"
   ],
   "note": ""
  },
  {
   "property": "C04",
   "status": "proved",
   "theorems": [
    "C04_jump_words"
   ],
   "note": ""
  },
  {
   "property": "C05",
   "status": "proved",
   "theorems": [
    "C05_comments_ignored"
   ],
   "note": ""
  },
  {
   "property": "C06",
   "status": "partial",
   "theorems": [
    "C06_rejects_exactly_unbalanced_refuted",
    "C06_rejects_exactly_unbalanced_partial"
   ],
   "note": "Refuted: an unmatched '[' is accepted. The other half holds."
  },
  {
   "property": "C07",
   "status": "partial",
   "theorems": [
    "C07_large_programs_refuted",
    "C07_large_programs_partial"
   ],
   "note": "Refuted: 65537 words wrap the 16-bit jump addresses. Holds up to 65535 words."
  },
  {
   "property": "C08",
   "status": "proved",
   "theorems": [
    "C08_cells_in_range"
   ],
   "note": ""
  },
  {
   "property": "C09",
   "status": "proved",
   "theorems": [
    "C09_trace_complete"
   ],
   "note": ""
  },
  {
   "property": "C10",
   "status": "proved",
   "theorems": [
    "C10_inverse_column"
   ],
   "note": ""
  },
  {
   "property": "C11",
   "status": "proved",
   "theorems": [
    "C11_sorted_rearrangements",
    "C11_memory_by_cycle"
   ],
   "note": ""
  },
  {
   "property": "C12",
   "status": "proved",
   "theorems": [
    "C12_honest_execution_satisfies"
   ],
   "note": ""
  },
  {
   "property": "C13",
   "status": "partial",
   "theorems": [
    "C13_partial_input_provable_refuted",
    "C13_unread_input_never_satisfies"
   ],
   "note": "Refuted: the circuit publishes the input length but constrains the number of bytes read; unread input never satisfies it."
  },
  {
   "property": "C14",
   "status": "partial",
   "theorems": [
    "C14_size_has_room_refuted",
    "C14_size_has_room_partial"
   ],
   "note": "Refuted: 253 times '+' needs 507 rows, k = 9 gives 506 usable. Exact failing lengths characterised."
  },
  {
   "property": "C16",
   "status": "proved",
   "theorems": [
    "C16_local_transitions"
   ],
   "note": ""
  },
  {
   "property": "C17",
   "status": "proved",
   "theorems": [
    "C17_bytes_and_inverses"
   ],
   "note": ""
  },
  {
   "property": "C15",
   "status": "partial",
   "theorems": [
    "C15_soundness_refuted",
    "C15_diverging_program_refuted",
    "C15_every_statement_accepted"
   ],
   "note": "Refuted: any output table and any public columns are accepted under any key whose table sizes some terminating run has."
  },
  {
   "property": "C18",
   "status": "partial",
   "theorems": [
    "C18_memory_consistency_refuted"
   ],
   "note": "Refuted: the memory table is not ordered by cycle within a cell."
  },
  {
   "property": "C19",
   "status": "partial",
   "theorems": [
    "C19_code_binding_refuted"
   ],
   "note": "Refuted: the instruction permutation product may start at 0."
  },
  {
   "property": "C20",
   "status": "partial",
   "theorems": [
    "C20_input_binding_refuted"
   ],
   "note": "Refuted: the processor's final input sum is not constrained."
  },
  {
   "property": "C21",
   "status": "partial",
   "theorems": [
    "C21_zero_start_refuted",
    "C21_leading_zero_accepted"
   ],
   "note": "Refuted: started at zero, the sums do not notice leading zero bytes of the input. With a non-zero start the statement holds (C39)."
  },
  {
   "property": "C22",
   "status": "proved",
   "theorems": [
    "C22_running_sum_roots",
    "C22_running_sum_unique",
    "C22_circuit_columns"
   ],
   "note": ""
  },
  {
   "property": "C23",
   "status": "proved",
   "theorems": [
    "C23_products_are_multisets",
    "C23_circuit_columns",
    "C23_memory_table_is_trace"
   ],
   "note": "Lists shorter than 2^64; longer than the field has elements it is false."
  },
  {
   "property": "C39",
   "status": "proved",
   "theorems": [
    "C39_repaired_circuit_sound"
   ],
   "note": ""
  },
  {
   "property": "C40",
   "status": "proved",
   "theorems": [
    "C40_repaired_circuit_complete"
   ],
   "note": ""
  },
  {
   "property": "C29",
   "status": "proved",
   "theorems": [
    "C29_inversion",
    "C29_moduli"
   ],
   "note": ""
  },
  {
   "property": "C30",
   "status": "proved",
   "theorems": [
    "C30_limb_arithmetic"
   ],
   "note": ""
  },
  {
   "property": "C31",
   "status": "proved",
   "theorems": [
    "C31_repr"
   ],
   "note": ""
  },
  {
   "property": "C32",
   "status": "proved",
   "theorems": [
    "C32_order"
   ],
   "note": ""
  },
  {
   "property": "C33",
   "status": "proved",
   "theorems": [
    "C33_wide"
   ],
   "note": ""
  },
  {
   "property": "C41",
   "status": "proved",
   "theorems": [
    "C41_generator",
    "C41_constants",
    "C41_base_constants"
   ],
   "note": ""
  },
  {
   "property": "C42",
   "status": "proved",
   "theorems": [
    "C42_cell_names"
   ],
   "note": ""
  },
  {
   "property": "C43",
   "status": "proved",
   "theorems": [
    "C43_sqrt",
    "C43_legendre"
   ],
   "note": ""
  },
  {
   "property": "C44",
   "status": "proved",
   "theorems": [
    "C44_conversions"
   ],
   "note": "pow is pasta_curves' FieldExt::pow, modelled from its documentation: the crate is not in the repository."
  },
  {
   "property": "C34",
   "status": "proved",
   "theorems": [
    "C34_copies",
    "C34_total",
    "C34_project",
    "C34_polynomials"
   ],
   "note": "Any sequence of copies, any number of columns and rows; also the values of the permutation polynomials and the project's own circuit."
  },
  {
   "property": "C35",
   "status": "proved",
   "theorems": [
    "C35_compress",
    "C35_project"
   ],
   "note": "Every configured constraint system and all activation vectors; also every key of the project's circuit. Fewer selectors than the field modulus are assumed."
  },
  {
   "property": "C36",
   "status": "proved",
   "theorems": [
    "C36_recreate",
    "C35_project"
   ],
   "note": "Any constraint system the compression accepts."
  },
  {
   "property": "C38",
   "status": "proved",
   "theorems": [
    "C38_disjoint",
    "C38_zero",
    "C38_tight",
    "C38_project"
   ],
   "note": "Any sequence of regions; also the seven regions of the project for every trace."
  },
  {
   "property": "C24",
   "status": "proved",
   "theorems": [
    "C24_published",
    "C24_words"
   ],
   "note": "Programs of at most 1023 words and inputs of at most 1023 bytes, the most the decoders take (C25)."
  },
  {
   "property": "C25",
   "status": "partial",
   "theorems": [
    "C25_refuted",
    "C25_code_partial",
    "C25_input_partial"
   ],
   "note": "Refuted: an odd number of code bytes, 1024 words or 1024 input bytes crash the program. The partial theorems characterise exactly when the decoders crash."
  },
  {
   "property": "C26",
   "status": "partial",
   "theorems": [
    "C26_zero",
    "C26_rejected",
    "C26_failure",
    "C26_codes",
    "C26_failure_partial",
    "C26_failure_exact_partial",
    "C26_failure_refuted"
   ],
   "note": "Proved for exit codes 0 and -2 and for -1 implying a failure. Refuted in one direction: a failure can crash instead of giving -1."
  },
  {
   "property": "C27",
   "status": "partial",
   "theorems": [
    "C27_transaction",
    "C27_refuted"
   ],
   "note": "Refuted: keys and parameters come from the witness and any valid key is admitted. C27_transaction is what holds: the exit code is that of the proof check under the supplied key."
  },
  {
   "property": "C28",
   "status": "proved",
   "theorems": [
    "C28_params"
   ],
   "note": "1 <= k < 31; with k = 0 the shrink assertion fails, at k = 31 the reader computes another domain size (C28_limit)."
  },
  {
   "property": "C37",
   "status": "proved",
   "theorems": [
    "C37_expression",
    "C37_assignment",
    "C37_assignment_refuted"
   ],
   "note": "Expressions in all three formats; selector assignments in the two raw formats (in the Processed format the reader disagrees with the writer, C37_assignment_refuted). The reader's recursion depth is a parameter."
  },
  {
   "property": "C45",
   "status": "proved",
   "theorems": [
    "C45_round",
    "C45_canonical"
   ],
   "note": ""
  },
  {
   "property": "C46",
   "status": "partial",
   "theorems": [
    "C46_refuted",
    "C46_canonical_partial"
   ],
   "note": "Refuted: the RawBytes reader never checks the curve equation. Only canonicity of the coordinates holds."
  },
  {
   "property": "C47",
   "status": "proved",
   "theorems": [
    "C47_generated",
    "C47_valid",
    "C47_total"
   ],
   "note": "Commitments are any function to coordinate pairs; the transcript hash stored in the key is not modelled."
  },
  {
   "property": "C48",
   "status": "partial",
   "theorems": [
    "C48_refuted",
    "C48_truncated_partial"
   ],
   "note": "Refuted: a size of 25 or more and truncation inside the selector assignments crash the reader. C48_truncated_partial gives the exact outcome for every truncation of a valid key."
  },
  {
   "property": "C49",
   "status": "partial",
   "theorems": [
    "C49_domain",
    "C49_refused",
    "C49_refuted"
   ],
   "note": "Proved for every admissible degree and size. Refuted for the rest: the release build accepts k = 63 for the project's degree."
  },
  {
   "property": "C50",
   "status": "proved",
   "theorems": [
    "C50_sound"
   ],
   "note": "Commitments are taken to bind: openings are values of the committed polynomials. Challenges are counted, not sampled; Fiat-Shamir is not modelled."
  },
  {
   "property": "C51",
   "status": "proved",
   "theorems": [
    "C51_prover_accepted",
    "C51_complete",
    "C51_honest_run"
   ],
   "note": "The quotient polynomial exists; the code computing it on the extended domain is not modelled."
  },
  {
   "property": "C52",
   "status": "proved",
   "theorems": [
    "C52_exactly_accepted"
   ],
   "note": "Public columns of at most the usable rows."
  },
  {
   "property": "C53",
   "status": "partial",
   "theorems": [
    "C53_wrong_output_refuted",
    "C53_diverging_refuted"
   ],
   "note": "Refuted: a wrong output and a diverging program can be proved."
  },
  {
   "property": "C54",
   "status": "partial",
   "theorems": [
    "C54_folded",
    "C54_determined_refuted"
   ],
   "note": "Refuted: columns longer than the circuit are added up modulo its length. C54_folded says that folded columns are all the verifier sees."
  },
  {
   "property": "C55",
   "status": "proved",
   "theorems": [
    "C55_permuted_lookup"
   ],
   "note": ""
  },
  {
   "property": "C56",
   "status": "proved",
   "theorems": [
    "C56_evaluations_read_back"
   ],
   "note": ""
  },
  {
   "property": "C57",
   "status": "proved",
   "theorems": [
    "C57_fft",
    "C57_length"
   ],
   "note": "Any vector space over the scalar field."
  },
  {
   "property": "C58",
   "status": "proved",
   "theorems": [
    "C58_basis_changes"
   ],
   "note": ""
  },
  {
   "property": "C59",
   "status": "proved",
   "theorems": [
    "C59_quotient"
   ],
   "note": ""
  },
  {
   "property": "C60",
   "status": "proved",
   "theorems": [
    "C60_evaluation",
    "C60_division"
   ],
   "note": ""
  },
  {
   "property": "C61",
   "status": "proved",
   "theorems": [
    "C61_interpolation"
   ],
   "note": ""
  },
  {
   "property": "C62",
   "status": "proved",
   "theorems": [
    "C62_multiexp"
   ],
   "note": "The curve group is any vector space over the scalar field."
  },
  {
   "property": "C63",
   "status": "proved",
   "theorems": [
    "C63_setup",
    "C63_commit",
    "C63_commit_lagrange",
    "C63_downsize"
   ],
   "note": "The curve groups are parameters."
  },
  {
   "property": "C64",
   "status": "proved",
   "theorems": [
    "C64_openings_bind"
   ],
   "note": "Groups and pairing are parameters with the laws of a vector space and of a pairing. The prover answers with polynomials; challenges and secrets are counted."
  },
  {
   "property": "C65",
   "status": "proved",
   "theorems": [
    "C65_openings_accepted"
   ],
   "note": "At most as many distinct points as coefficients."
  },
  {
   "property": "C66",
   "status": "partial",
   "theorems": [
    "C66_every_claim_refuted"
   ],
   "note": "Refuted: a second claim about the same commitment and point is ignored."
  },
  {
   "property": "C67",
   "status": "partial",
   "theorems": [
    "C67_secret_refuted"
   ],
   "note": "Refuted: who knows the secret opens anything. C64 is what holds."
  },
  {
   "property": "C68",
   "status": "proved",
   "theorems": [
    "C68_conversation"
   ],
   "note": ""
  },
  {
   "property": "C69",
   "status": "proved",
   "theorems": [
    "C69_challenge_x",
    "C69_challenge_u"
   ],
   "note": "Injectivity of the key's digest is a hypothesis."
  },
  {
   "property": "C70",
   "status": "partial",
   "theorems": [
    "C70_trailing_refuted",
    "C70_size_partial"
   ],
   "note": "Refuted: bytes behind a proof are ignored. Proved: nothing shorter is accepted and the prefix decides."
  },
  {
   "property": "C71",
   "status": "partial",
   "theorems": [
    "C71_columns_refuted"
   ],
   "note": "Refuted: column boundaries are not absorbed. C69 is what holds for the project's columns."
  },
  {
   "property": "C72",
   "status": "proved",
   "theorems": [
    "C72_panics",
    "C72_domain"
   ],
   "note": ""
  },
  {
   "property": "C73",
   "status": "partial",
   "theorems": [
    "C73_identity_refuted",
    "C73_program_refuted"
   ],
   "note": "Refuted: parameters with points at infinity make zero bytes a proof of anything."
  },
  {
   "property": "C74",
   "status": "partial",
   "theorems": [
    "C74_forged_refuted"
   ],
   "note": "Refuted: who knows the secret completes any proof."
  },
  {
   "property": "C75",
   "status": "proved",
   "theorems": [
    "C75_key_fits",
    "C75_proof_fits",
    "C75_transaction"
   ],
   "note": "Circuit sizes k below 63."
  },
  {
   "property": "C76",
   "status": "proved",
   "theorems": [
    "C76_gates",
    "C76_lookup",
    "C76_selectors"
   ],
   "note": ""
  },
  {
   "property": "C77",
   "status": "proved",
   "theorems": [
    "C77_proving_key"
   ],
   "note": "Circuit sizes k below 63."
  },
  {
   "property": "C78",
   "status": "proved",
   "theorems": [
    "C78_numerator"
   ],
   "note": ""
  },
  {
   "property": "C79",
   "status": "proved",
   "theorems": [
    "C79_quotient"
   ],
   "note": ""
  },
  {
   "property": "C80",
   "status": "proved",
   "theorems": [
    "C80_proof",
    "C80_fortunate",
    "C80_sizes"
   ],
   "note": "Group and pairing are parameters; the proof is for one circuit instance."
  },
  {
   "property": "C81",
   "status": "proved",
   "theorems": [
    "C81_accepted"
   ],
   "note": "Group and pairing are parameters."
  },
  {
   "property": "C82",
   "status": "proved",
   "theorems": [
    "C82_sound",
    "C82_complete",
    "C82_bytes"
   ],
   "note": "Provers answer with polynomials they know (algebraic provers); challenges and secrets are counted, no probability."
  },
  {
   "property": "C83",
   "status": "proved",
   "theorems": [
    "C83_exactly_accepted"
   ],
   "note": "As C82."
  },
  {
   "property": "C84",
   "status": "proved",
   "theorems": [
    "C84_columns"
   ],
   "note": "Group and pairing are parameters."
  },
  {
   "property": "C85",
   "status": "partial",
   "theorems": [
    "C85_any_statement_refuted",
    "C85_diverging_refuted"
   ],
   "note": "Refuted: with the key of any completed run the code of create_proof writes accepted proofs for every program and input that fit, and any output of the length the run wrote; the witness columns are not those of a run."
  },
  {
   "property": "C86",
   "status": "proved",
   "theorems": [
    "C86_law",
    "C86_affine",
    "C86_membership"
   ],
   "note": "The base field is a parameter; batch_add, which nothing calls, is not modelled."
  },
  {
   "property": "C87",
   "status": "proved",
   "theorems": [
    "C87_group"
   ],
   "note": "The base field is a parameter."
  },
  {
   "property": "C88",
   "status": "proved",
   "theorems": [
    "C88_times",
    "C88_sum",
    "C88_batch"
   ],
   "note": "The base field is a parameter."
  },
  {
   "property": "C89",
   "status": "proved",
   "theorems": [
    "C89_g1",
    "C89_points",
    "C89_pairing"
   ],
   "note": "The pairing is a parameter; the second group is that of the pairing."
  },
  {
   "property": "C90",
   "status": "proved",
   "theorems": [
    "C90_limbs",
    "C90_affine",
    "C90_lists",
    "C90_stored"
   ],
   "note": "Without the asm feature."
  },
  {
   "property": "C91",
   "status": "proved",
   "theorems": [
    "C91_accepted"
   ],
   "note": "The second group and the bilinear map are parameters."
  },
  {
   "property": "C92",
   "status": "proved",
   "theorems": [
    "C92_fields",
    "C92_fq2",
    "C92_fq6",
    "C92_fq12",
    "C92_limbs"
   ],
   "note": "Without the asm feature; random and hashing functions not modelled."
  },
  {
   "property": "C93",
   "status": "proved",
   "theorems": [
    "C93_sqrt",
    "C93_limbs"
   ],
   "note": ""
  },
  {
   "property": "C94",
   "status": "proved",
   "theorems": [
    "C94_frobenius",
    "C94_cyclotomic",
    "C94_limbs"
   ],
   "note": ""
  },
  {
   "property": "C95",
   "status": "partial",
   "theorems": [
    "C95_bytes_partial",
    "C95_reject_refuted"
   ],
   "note": "Refuted: from_bytes and from_repr unwrap, so bytes that are not canonical panic instead of giving None; what is written is read back."
  },
  {
   "property": "C96",
   "status": "partial",
   "theorems": [
    "C96_is_zero_refuted",
    "C96_is_zero_partial"
   ],
   "note": "Refuted: is_zero of Fq6 and Fq12 does not look at c2."
  },
  {
   "property": "C97",
   "status": "proved",
   "theorems": [
    "C97_final",
    "C97_limbs"
   ],
   "note": ""
  },
  {
   "property": "C98",
   "status": "proved",
   "theorems": [
    "C98_miller",
    "C98_check",
    "C98_limbs"
   ],
   "note": "Which value a single pairing has and that it is bilinear is not part of the claim."
  },
  {
   "property": "C99",
   "status": "proved",
   "theorems": [
    "C99_root",
    "C99_group"
   ],
   "note": ""
  },
  {
   "property": "C100",
   "status": "proved",
   "theorems": [
    "C100_curve",
    "C100_limbs"
   ],
   "note": "The order of the generator of G2 is not part of the claim."
  },
  {
   "property": "C101",
   "status": "partial",
   "theorems": [
    "C101_ate_partial",
    "C101_infinity",
    "C101_limbs"
   ],
   "note": "Missing: that the points of order r of G2 are those on which Frobenius is multiplication by q, which the theorem assumes, in particular that the generator of G2 is one of them. Bilinearity is not part of the claim."
  }
 ]
}