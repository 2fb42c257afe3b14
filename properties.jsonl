{"id": "C01", "title": "Running a compiled program computes Brainfuck", "statement": "Compiling a bracket-balanced source and running it on a byte input stops normally exactly when the Brainfuck program itself terminates normally on that input (8-bit wrapping cells, tape growing to the right of cell 0), and then the recorded output is exactly the program's output and the recorded input is exactly the bytes the program read.", "quantifier": "every balanced source of at least one and at most 65535 compiled words, every finite byte input, every number of executed steps", "why_tests_cant": "programs are unbounded and looping: a test runs one program on one input for a bounded time and says nothing about other nestings, jump distances or inputs", "anchors": ["ckb_bf_vm/src/code.rs: compile_to_u16, compile", "ckb_bf_vm/src/interpreter.rs: Interpreter::run"]}
{"id": "C02", "title": "The interpreter panics exactly when the program itself goes wrong", "statement": "Running a compiled balanced program panics if and only if the Brainfuck program moves left of cell 0 or reads when no input is left (or needs more tape than a Rust vector can ever hold); in particular none of the unwraps, index operations or unreachable!() in the interpreter is reachable in any other way.", "quantifier": "every balanced non-empty source within the 16-bit address space, every byte input", "why_tests_cant": "absence of a panic on all programs and inputs cannot be sampled; the panicking states are reached only after particular histories", "anchors": ["ckb_bf_vm/src/interpreter.rs: Interpreter::run, Register::ip, Register::mp"]}
{"id": "C03", "title": "The interpreter diverges exactly when the program does", "statement": "Running a compiled balanced program goes on forever exactly when the Brainfuck program neither terminates nor fails.", "quantifier": "every balanced non-empty source within the 16-bit address space, every byte input", "why_tests_cant": "non-termination cannot be observed by a test", "anchors": ["ckb_bf_vm/src/interpreter.rs: Interpreter::run"]}
{"id": "C04", "title": "Jump words connect matching brackets", "statement": "In the compiled code every '[' is followed by the address just past the word pair of its matching ']', and every ']' is followed by the address of the first instruction after its matching '[' word pair; all other words are the source's instructions in order.", "quantifier": "every balanced source whose compiled form has at most 65535 words, any nesting depth", "why_tests_cant": "nesting depth and program length are unbounded", "anchors": ["ckb_bf_vm/src/code.rs: compile_to_u16"]}
{"id": "C05", "title": "Only the eight instruction characters matter", "statement": "Compiling a source gives the same result as compiling the source with every other byte removed.", "quantifier": "every byte string, whether or not its brackets balance", "why_tests_cant": "comments can be any bytes in any position", "anchors": ["ckb_bf_vm/src/code.rs: compile_to_u16"]}
{"id": "C06", "title": "The compiler rejects exactly the sources with unbalanced brackets", "statement": "Compilation fails if and only if the source's brackets do not balance.", "quantifier": "every byte string that compiles to at most 65535 words", "why_tests_cant": "the set of malformed sources is infinite; a test picks a few", "anchors": ["ckb_bf_vm/src/code.rs: compile_to_u16"]}
{"id": "C07", "title": "Compilation of large programs is either right or rejected", "statement": "For every balanced source, of whatever size, compilation either fails or produces jump words that connect matching brackets.", "quantifier": "every balanced source, including those with more than 65535 compiled words", "why_tests_cant": "16-bit address wrap-around only shows on sources of tens of thousands of instructions with particular bracket positions", "anchors": ["ckb_bf_vm/src/code.rs: compile_to_u16"]}
{"id": "C08", "title": "Cells always hold values of the configured width", "statement": "Throughout a run every memory cell and every recorded memory value stays in [0, 2^bits), '+' and '-' act on it as addition and subtraction of one modulo 2^bits, provided the supplied input values are in that range.", "quantifier": "every code vector, every in-range input, every width 0..63, every reachable state of a run", "why_tests_cant": "a range invariant over all reachable states of all programs", "anchors": ["ckb_bf_vm/src/interpreter.rs: Interpreter::run, Interpreter::set_bits"]}
{"id": "C09", "title": "The execution trace is complete and consecutive", "statement": "After a successful run the processor matrix has one row per executed instruction plus a final row; row i has cycle i, the first row is the initial machine state with all pointers and values zero, each row follows from its predecessor by executing the instruction it shows, the instruction and look-ahead words in each row are the program words at its instruction pointer (zero past the end), and the last row's instruction pointer is exactly the program length.", "quantifier": "every balanced program and byte input for which the run succeeds", "why_tests_cant": "quantifies over all rows of all successful runs", "anchors": ["ckb_bf_vm/src/interpreter.rs: Interpreter::run", "ckb_bf_vm/src/matrix.rs"]}
{"id": "C10", "title": "The inverse column is the inverse", "statement": "In every recorded row the memory-value-inverse is zero when the memory value is zero and is otherwise the multiplicative inverse of the memory value in the scalar field.", "quantifier": "every code vector and input for which the run succeeds, every row", "why_tests_cant": "depends on the primality of a 254-bit modulus and on all reachable states", "anchors": ["ckb_bf_vm/src/interpreter.rs: Interpreter::run", "halo2curves/src/bn256/fr.rs: Fr::invert"]}
{"id": "C11", "title": "Memory and instruction matrices are sorted rearrangements of the trace", "statement": "After a successful run the memory matrix contains exactly the (cycle, pointer, value) triples of the trace ordered by pointer and, for equal pointers, by cycle; the instruction matrix contains exactly one row per program word plus the (ip, instruction, look-ahead) triples of the trace, ordered by instruction pointer.", "quantifier": "every code vector and input for which the run succeeds", "why_tests_cant": "multiset equality and sortedness for traces of any length", "anchors": ["ckb_bf_vm/src/interpreter.rs: Interpreter::run", "ckb_bf_vm/src/matrix.rs"]}
{"id": "C12", "title": "An honest execution can always be proved: every constraint holds", "statement": "For a program that terminates normally on an input and consumes all of it, the assignment synthesised from the interpreter's matrices satisfies every gate, lookup and equality constraint of the circuit against the public program and input, whatever the verifier challenges are, as long as the table rows fit the circuit.", "quantifier": "every balanced program, byte input, all eleven challenges, every circuit size with enough rows", "why_tests_cant": "completeness over all programs, all inputs and all 254-bit challenges", "anchors": ["ckb_bf_base/src/main_config.rs: MainConfig::configure, MainConfig::load_table, MyCircuit::synthesize", "ckb_bf_base/src/processor_table.rs", "ckb_bf_base/src/memory_table.rs", "ckb_bf_base/src/instruction_table.rs", "ckb_bf_base/src/input_table.rs", "ckb_bf_base/src/output_table.rs", "ckb_bf_base/src/program_table.rs", "ckb_bf_base/src/range_table.rs"]}
{"id": "C13", "title": "A program need not read all of its input to be provable", "statement": "For every program that terminates normally on an input, the assignment the prover synthesises satisfies the circuit against the public program and public input the prover publishes.", "quantifier": "every balanced program and byte input on which it terminates normally", "why_tests_cant": "the failure needs an input longer than what the program reads, which the test-suite never supplies", "anchors": ["ckb_bf_prover/src/main.rs: prove_and_verify, main", "ckb_bf_base/src/input_table.rs: InputTableConfig::load_table"]}
{"id": "C14", "title": "The chosen circuit size always has room for the tables", "statement": "The size parameter k computed by the prover always gives a circuit with enough usable rows for every table of the run.", "quantifier": "every successful run, every instruction-matrix length", "why_tests_cant": "fails only at lengths just below a power of two", "anchors": ["ckb_bf_prover/src/main.rs: main", "halo2_proofs/src/plonk/circuit.rs: ConstraintSystem::blinding_factors, minimum_rows"]}
{"id": "C15", "title": "Only correct executions of the public program satisfy the circuit", "statement": "If, for every value of the verifier's challenges, some second-phase assignment completes a given first-phase assignment to one satisfying all constraints for public code and input, then the public program terminates normally on the public input and the circuit's output table holds its output.", "quantifier": "every first-phase witness a malicious prover can choose, all challenges, every public code and input", "why_tests_cant": "soundness quantifies over all adversarial witnesses; tests only run honest witnesses", "anchors": ["ckb_bf_base/src/main_config.rs: MainConfig::configure", "ckb_bf_base/src/processor_table.rs", "ckb_bf_base/src/memory_table.rs", "ckb_bf_base/src/instruction_table.rs"]}
{"id": "C16", "title": "Each pair of consecutive trace rows obeys the instruction semantics", "statement": "In any assignment satisfying the processor-table constraints, if a row (not the last) shows one of the eight instructions then the next row's cycle, instruction pointer, memory pointer and, where the instruction determines it, memory value are exactly what executing that instruction yields: '+' and '-' are arithmetic modulo 256, '[' and ']' jump exactly when they should.", "quantifier": "every field assignment (adversarial), every row", "why_tests_cant": "adversarial field elements, including ones no honest run produces", "anchors": ["ckb_bf_base/src/processor_table.rs: ProcessorTableConfig::configure, create_deselector"]}
{"id": "C17", "title": "Memory values in a satisfying trace are bytes and inverses are inverses", "statement": "In any satisfying assignment every enabled row's memory value is one of 0..255 and its inverse column is zero or the true inverse, with the first row all zero.", "quantifier": "every satisfying assignment, every processor row", "why_tests_cant": "quantifies over adversarial field elements", "anchors": ["ckb_bf_base/src/processor_table.rs", "ckb_bf_base/src/range_table.rs"]}
{"id": "C18", "title": "The circuit enforces memory consistency", "statement": "In any assignment satisfying the constraints for all challenges, each read of a cell returns the value the cell held after its latest earlier visit (0 if none).", "quantifier": "every adversarial assignment, every pair of visits of a cell", "why_tests_cant": "needs an adversarial reordering of the memory table", "anchors": ["ckb_bf_base/src/memory_table.rs: MemoryTableConfig::configure", "ckb_bf_base/src/processor_table.rs"]}
{"id": "C19", "title": "The circuit binds the executed instructions to the public code", "statement": "In any assignment satisfying the constraints for all challenges, the instruction and look-ahead words of each processor row are the public program's words at that row's instruction pointer.", "quantifier": "every adversarial assignment, every public code", "why_tests_cant": "needs an adversarial instruction table", "anchors": ["ckb_bf_base/src/instruction_table.rs", "ckb_bf_base/src/program_table.rs: ProgramTableConfig::load_table"]}
{"id": "C20", "title": "The circuit binds the values read to the public input", "statement": "In any assignment satisfying the constraints for all challenges, the sequence of values loaded by ',' is exactly the public input.", "quantifier": "every adversarial assignment, every public input", "why_tests_cant": "needs adversarial running-sum cells", "anchors": ["ckb_bf_base/src/input_table.rs", "ckb_bf_base/src/processor_table.rs"]}
{"id": "C21", "title": "The missing constraints are enough: repaired circuit is sound", "statement": "If an assignment satisfies the circuit's constraints for all challenges and additionally the accumulator cells start at their intended constants, the accumulators are constrained on the last row too, the instruction table starts at ip 0 with look-ahead words linked to the following instruction and ends at the program length, and memory rows of one cell are in increasing cycle order, then the public program terminates normally on the public input and the output table is its output.", "quantifier": "every adversarial assignment meeting the listed extra conditions, every balanced public program, every input", "why_tests_cant": "soundness over all adversarial witnesses", "anchors": ["ckb_bf_base/src/main_config.rs", "ckb_bf_base/src/processor_table.rs", "ckb_bf_base/src/memory_table.rs", "ckb_bf_base/src/instruction_table.rs"]}
{"id": "C22", "title": "Running sums identify sequences", "statement": "Two different value sequences of the same length n get the same running sum for fewer than n values of the challenge.", "quantifier": "all sequences over the scalar field of any length, all challenges", "why_tests_cant": "counting over a 254-bit field", "anchors": ["ckb_bf_base/src/input_table.rs", "ckb_bf_base/src/output_table.rs", "ckb_bf_base/src/program_table.rs", "ckb_bf_base/src/instruction_table.rs"]}
{"id": "C23", "title": "Permutation products identify multisets of rows", "statement": "Two lists of rows have equal permutation products for all challenges exactly when they are rearrangements of each other (starting from the same non-zero initial value).", "quantifier": "all lists of fewer than 2^64 triples of field elements, all challenge quadruples", "why_tests_cant": "algebraic identity over a 254-bit field", "anchors": ["ckb_bf_base/src/memory_table.rs", "ckb_bf_base/src/processor_table.rs", "ckb_bf_base/src/instruction_table.rs"]}
{"id": "C24", "title": "The on-chain verifier sees the public values the prover published", "statement": "The code bytes and input bytes put in the transaction are decoded by the on-chain program into exactly the instance columns the prover used.", "quantifier": "every program and input that fit the on-chain buffers", "why_tests_cant": "boundary sizes and 16-bit words of every value", "anchors": ["ckb_bf_prover/src/main.rs: prove_and_verify", "ckb_bf_verifier/src/main.rs: program_entry"]}
{"id": "C25", "title": "The on-chain verifier never crashes while decoding", "statement": "Whatever witnesses are supplied, decoding the code and input witnesses ends in an error code or in instance columns, never in a panic.", "quantifier": "every combination of witness lengths and contents", "why_tests_cant": "adversarial witness sizes at the exact buffer boundaries", "anchors": ["ckb_bf_verifier/src/main.rs: program_entry"]}
{"id": "C26", "title": "Exit code zero means verification succeeded", "statement": "The on-chain program returns 0 if and only if all five witnesses load, parameters and key parse, and proof verification succeeds on the decoded instances; any load or parse failure gives -1 and a verification failure gives -2.", "quantifier": "every witness set and every behaviour of the parsing and verification routines", "why_tests_cant": "error-path combinations", "anchors": ["ckb_bf_verifier/src/main.rs: program_entry"]}
{"id": "C27", "title": "The exit code depends on the fixed circuit, not on attacker-chosen keys", "statement": "The on-chain program accepts only proofs for one fixed verifying key and parameter set.", "quantifier": "every choice of parameter and key witnesses", "why_tests_cant": "needs adversarial key material", "anchors": ["ckb_bf_verifier/src/main.rs: program_entry", "ckb_bf_base/src/utils.rs: read_verifier_params"]}
{"id": "C28", "title": "Verifier parameters survive serialisation", "statement": "Reading back the shrunk verifier parameters written by the prover yields the same k, the domain size 2^k, and the same group elements; truncated data is rejected with an error.", "quantifier": "every k below 31, all group elements, every truncation point", "why_tests_cant": "all byte strings and all truncation points", "anchors": ["ckb_bf_base/src/utils.rs: read_verifier_params", "halo2_proofs/src/poly/kzg/commitment.rs: ParamsKZG::write_custom, shrink"]}
{"id": "C29", "title": "The scalar field modulus is prime and inversion is correct", "statement": "The modulus is prime, and for every non-zero field element the inverse computed by exponentiation multiplied by the element is one; zero has no inverse.", "quantifier": "all 254-bit field elements", "why_tests_cant": "2^254 elements", "anchors": ["halo2curves/src/bn256/fr.rs: Fr::invert, MODULUS"]}
{"id": "C30", "title": "Limb arithmetic implements the field", "statement": "Addition, subtraction, negation, doubling, multiplication and squaring on four 64-bit limbs in Montgomery form return canonical limbs representing the sum, difference, negative, double, product and square modulo the field modulus, for the scalar field and for the base field.", "quantifier": "all canonical limb vectors", "why_tests_cant": "2^508 operand pairs; carry-chain errors occur on a vanishing fraction", "anchors": ["halo2curves/src/derive/field.rs: field_arithmetic, mul, square, montgomery_reduce, add, sub, neg", "halo2curves/src/arithmetic.rs: adc, sbb, mac", "halo2curves/src/bn256/fr.rs", "halo2curves/src/bn256/fq.rs"]}
{"id": "C31", "title": "Field elements survive byte encoding and non-canonical encodings are rejected", "statement": "to_repr followed by from_repr gives the element back, from_repr accepts a 32-byte string exactly when its little-endian value is below the modulus, and then to_repr of the result is the same string.", "quantifier": "all field elements, all 32-byte strings", "why_tests_cant": "2^256 strings", "anchors": ["halo2curves/src/bn256/fr.rs: from_repr, to_repr", "halo2curves/src/derive/field.rs: is_less_than"]}
{"id": "C32", "title": "Field comparison is numeric comparison", "statement": "Comparing two field elements with the Ord operators gives the order of their canonical integer values, so sorting by a field key sorts numerically.", "quantifier": "all pairs of field elements", "why_tests_cant": "2^508 pairs", "anchors": ["halo2curves/src/derive/field.rs: Ord for field", "ckb_bf_vm/src/interpreter.rs: Interpreter::run"]}
{"id": "C33", "title": "Wide reduction is reduction modulo the field", "statement": "Reducing a 512-bit little-endian value gives the element congruent to it modulo the field modulus.", "quantifier": "all 64-byte strings", "why_tests_cant": "2^512 values", "anchors": ["halo2curves/src/derive/field.rs: from_u512"]}
{"id": "C34", "title": "Copy constraints are exactly the declared equalities", "statement": "After any sequence of copy operations the permutation built for the key is a bijection on cells whose cycles are exactly the equivalence classes generated by the declared equalities, so an assignment is invariant under the permutation if and only if it satisfies every declared equality.", "quantifier": "every sequence of copy declarations over any number of columns and rows", "why_tests_cant": "order-dependent union-by-size cycle merging over arbitrary histories", "anchors": ["halo2_proofs/src/plonk/permutation/keygen.rs: Assembly::new, Assembly::copy"]}
{"id": "C35", "title": "Selector compression preserves every gate", "statement": "After selectors are combined into shared fixed columns, for every row the replacement expression of a selector is non-zero exactly when the selector is enabled on that row, every selector gets exactly one replacement, and no gate's degree exceeds the maximum allowed degree.", "quantifier": "every set of selectors with activation rows and degrees within the bound", "why_tests_cant": "the combination strategy is a heuristic over arbitrary activation patterns", "anchors": ["halo2_proofs/src/plonk/circuit/compress_selectors.rs: process"]}
{"id": "C36", "title": "The verifier rebuilds the same constraint system", "statement": "Replaying the serialised selector assignments on a freshly configured constraint system gives the same fixed columns, queries, gates and lookups as selector compression at key generation.", "quantifier": "every constraint system and activation pattern", "why_tests_cant": "depends on the order in which combinations are emitted for every activation pattern", "anchors": ["halo2_proofs/src/plonk/circuit.rs: ckb_recreate_side_effect, compress_selectors", "halo2_proofs/src/plonk.rs: VerifyingKey::write, VerifyingKey::read"]}
{"id": "C37", "title": "Expressions survive serialisation", "statement": "Reading a written expression returns the same expression and consumes exactly the bytes written, for expressions whose indices fit in 32 bits.", "quantifier": "every expression tree of any depth", "why_tests_cant": "unbounded recursive data", "anchors": ["halo2_proofs/src/plonk/circuit.rs: Expression::write, Expression::read", "halo2_proofs/src/plonk/circuit/compress_selectors.rs: SelectorAssignment::write, read"]}
{"id": "C38", "title": "Regions of different tables never share a cell", "statement": "The floor planner places regions so that no two regions that use a common column overlap in rows, and regions over disjoint columns all start at row 0.", "quantifier": "every sequence of region shapes", "why_tests_cant": "arbitrary sequences of regions", "anchors": ["halo2_proofs/src/circuit/floor_planner/single_pass.rs: assign_region"]}
{"id": "C39", "title": "Non-zero sum starts make the repaired circuit sound", "statement": "With the constraints of the repaired circuit added and the input and output sums started at a common non-zero value, an assignment accepted for all challenges implies that the public program terminates normally on exactly the public input, consumes all of it, and that the output table is its output.", "quantifier": "every adversarial assignment meeting the extra conditions, every balanced program of at most 65535 words, every input, every circuit size up to 2^28 rows, every non-zero start", "why_tests_cant": "soundness over all adversarial witnesses", "anchors": ["ckb_bf_base/src/main_config.rs", "ckb_bf_base/src/processor_table.rs", "ckb_bf_base/src/memory_table.rs", "ckb_bf_base/src/instruction_table.rs", "ckb_bf_base/src/input_table.rs", "ckb_bf_base/src/output_table.rs"]}
{"id": "C40", "title": "The repaired circuit still accepts honest runs", "statement": "Every terminating run that consumes its input yields an assignment meeting the repaired circuit's constraints for all challenges, with its output in the output table, whatever the sums start at.", "quantifier": "every program, every input, every circuit size with room for the instruction table, every start value", "why_tests_cant": "all programs, inputs and challenges", "anchors": ["ckb_bf_base/src/main_config.rs", "ckb_bf_vm/src/interpreter.rs", "ckb_bf_base/src/processor_table.rs"]}
{"id": "C41", "title": "The scalar field constants are what their comments say", "statement": "7 generates the multiplicative group; ROOT_OF_UNITY is 7^((r-1)/2^28) and has order exactly 2^28; ROOT_OF_UNITY_INV and TWO_INV are the inverses; DELTA is 7^(2^28); ZETA is a cube root of one different from one; the base field constants likewise.", "quantifier": "every exponent up to r-1", "why_tests_cant": "the order of 7 is a statement about r-2 powers", "anchors": ["halo2curves/src/bn256/fr.rs: GENERATOR, ROOT_OF_UNITY, ROOT_OF_UNITY_INV, DELTA, ZETA, TWO_INV", "halo2curves/src/bn256/fq.rs: ZETA, TWO_INV, NEGATIVE_ONE"]}
{"id": "C42", "title": "The permutation argument names every cell differently", "statement": "The products DELTA^i * omega^j used as cell names in the permutation argument are pairwise different for all columns i and rows j.", "quantifier": "every domain size 2^k with k at most 28, all rows, all column indices below (r-1)/2^28", "why_tests_cant": "2^28 rows times any number of columns", "anchors": ["halo2curves/src/bn256/fr.rs: DELTA, ROOT_OF_UNITY", "halo2_proofs/src/plonk/permutation/keygen.rs: build_pk, build_vk"]}
{"id": "C43", "title": "Base field square roots", "statement": "sqrt in the base field returns a root of every square and nothing for a non-square; legendre tells zero, non-zero squares and non-squares apart.", "quantifier": "all base field elements", "why_tests_cant": "2^254 elements", "anchors": ["halo2curves/src/bn256/fq.rs: sqrt, legendre"]}
{"id": "C44", "title": "Field conversions", "statement": "Conversions from u64, u128 and raw limbs give the element of that integer; get_lower_128, is_odd and pow agree with the canonical integer; the raw serialisation round trips and refuses non-canonical limbs and wrong lengths.", "quantifier": "all integers, limb vectors, exponents and byte strings", "why_tests_cant": "2^256 limb vectors", "anchors": ["halo2curves/src/derive/field.rs: From<u64>, from_u128, from_raw, get_lower_128, from_raw_bytes, to_raw_bytes", "halo2curves/src/bn256/fr.rs: is_odd", "halo2curves/src/bn256/fq.rs: is_odd"]}
{"id": "C45", "title": "Compressed points are canonical", "statement": "Encoding a point of G1 in compressed form and decoding it returns the point; whatever decodes lies on the curve and is the only encoding of its point.", "quantifier": "all points of G1, all 32-byte strings", "why_tests_cant": "2^256 strings; a second encoding would be a malleability found only by luck", "anchors": ["halo2curves/src/derive/curve.rs: from_bytes, to_bytes"]}
{"id": "C46", "title": "Checked raw points lie on the curve", "statement": "Reading a point in the RawBytes format accepts only pairs of canonical coordinates that satisfy the curve equation, as the documentation of the format says.", "quantifier": "all byte strings", "why_tests_cant": "only an adversary writes off-curve points", "anchors": ["halo2_proofs/src/helpers.rs: SerdeFormat, SerdeCurveAffine::read", "halo2curves/src/derive/curve.rs: read_raw"]}
{"id": "C47", "title": "Verifying keys survive serialisation", "statement": "Every key generated for the circuit is read back from its bytes identically, including the constraint system and the domain rebuilt from it; generation succeeds whenever the tables fit.", "quantifier": "every trace, every circuit size, every commitment function, both raw formats, any bytes behind the key", "why_tests_cant": "all traces and sizes; the constraint system depends on the trace", "anchors": ["halo2_proofs/src/plonk.rs: VerifyingKey::write, read, from_parts", "halo2_proofs/src/plonk/keygen.rs: keygen_vk, create_domain", "halo2_proofs/src/plonk/permutation.rs: VerifyingKey::write, read"]}
{"id": "C48", "title": "Malformed keys are refused with an error", "statement": "Reading a truncated or malformed verifying key returns an error, never a panic.", "quantifier": "all byte strings", "why_tests_cant": "adversarial bytes at every offset", "anchors": ["halo2_proofs/src/plonk.rs: VerifyingKey::read", "halo2_proofs/src/poly/domain.rs: EvaluationDomain::new", "halo2_proofs/src/plonk/circuit/compress_selectors.rs: SelectorAssignment::read"]}
{"id": "C49", "title": "The evaluation domain is what its fields say", "statement": "EvaluationDomain::new returns, for every degree and size the field's two-adicity admits, generators of exact order 2^k and 2^extended_k with the smallest sufficient extended_k, correct inverses, a coset shift of order three and the inverses of the vanishing polynomial on the coset; all other sizes are refused.", "quantifier": "every degree below 2^32 and every k", "why_tests_cant": "orders up to 2^28 and evaluations at all points of the coset", "anchors": ["halo2_proofs/src/poly/domain.rs: EvaluationDomain::new"]}
{"id": "C50", "title": "Accepted proofs come from satisfying assignments", "statement": "If, for one choice of committed advice polynomials, accepted answers exist for enough values of each verifier challenge, then the values of these polynomials on the rows satisfy every gate, lookup and copy constraint of the key's circuit with the given public columns.", "quantifier": "every well-formed key, every circuit size up to 2^28 rows, all public columns of at most that length, all committed polynomials", "why_tests_cant": "quantifies over all provers", "anchors": ["halo2_proofs/src/plonk/verifier.rs: verify_proof", "halo2_proofs/src/plonk/vanishing/verifier.rs: verify", "halo2_proofs/src/plonk/permutation/verifier.rs: expressions", "halo2_proofs/src/plonk/lookup/verifier.rs: expressions"]}
{"id": "C51", "title": "Satisfying assignments are accepted", "statement": "From a satisfying assignment the prover's lookup and permutation columns are accepted, with a suitable quotient, at every evaluation point outside the domain unless a challenge makes a denominator zero; enough challenges do not. In particular the witness synthesised for any terminating run that reads all its input convinces the verifier under the key generated for it.", "quantifier": "every key, assignment, challenge; every program, input and size", "why_tests_cant": "all programs, inputs and 2^254 challenges", "anchors": ["halo2_proofs/src/plonk/lookup/prover.rs: permute_expression_pair, commit_product", "halo2_proofs/src/plonk/permutation/prover.rs: commit", "halo2_proofs/src/plonk/prover.rs: create_proof"]}
{"id": "C52", "title": "What can be proved is what the circuit accepts", "statement": "For a generated key and public columns that fit, first-phase columns can be completed to a convincing proof for all challenges if and only if they can be completed to satisfying assignments.", "quantifier": "every trace, size, public columns and first-phase columns", "why_tests_cant": "quantifies over all provers in both directions", "anchors": ["halo2_proofs/src/plonk/verifier.rs: verify_proof", "halo2_proofs/src/plonk/keygen.rs: keygen_vk"]}
{"id": "C53", "title": "The verifier cannot be convinced of a wrong run", "statement": "With the key generated from a run, no prover convinces the verifier of an output table other than the program's output, or of a program that does not terminate.", "quantifier": "every program, input and prover", "why_tests_cant": "quantifies over all provers", "anchors": ["halo2_proofs/src/plonk/verifier.rs: verify_proof", "ckb_bf_base/src/main_config.rs: configure, load_table"]}
{"id": "C54", "title": "Public columns are determined by the proof statement", "statement": "Two lists of public columns that the verifier treats alike are equal up to trailing zeros.", "quantifier": "all public columns of any length", "why_tests_cant": "needs columns longer than the circuit", "anchors": ["halo2_proofs/src/plonk/verifier.rs: verify_proof (instance evaluations)", "halo2_proofs/src/poly/domain.rs: l_i_range"]}
{"id": "C55", "title": "Permuted lookup columns", "statement": "permute_expression_pair fails exactly when some input value is missing from the table; it never panics; otherwise it returns permutations of the usable rows of input and table such that every row equals the row above or the table's row.", "quantifier": "all columns, any number of usable rows", "why_tests_cant": "all multisets of field elements", "anchors": ["halo2_proofs/src/plonk/lookup/prover.rs: permute_expression_pair"]}
{"id": "C56", "title": "Evaluations are read back as written", "statement": "The verifier reads the evaluations of advice, fixed, random, permutation and lookup polynomials in exactly the order the prover writes them.", "quantifier": "every key and all values", "why_tests_cant": "an exchange of equal values goes unnoticed", "anchors": ["halo2_proofs/src/plonk/prover.rs: create_proof", "halo2_proofs/src/plonk/verifier.rs: verify_proof"]}
{"id": "C57", "title": "The Fourier transform evaluates", "statement": "best_fft maps a list of 2^L elements of any vector space over the scalar field to the values of the polynomial with these coefficients at the powers of omega, in order, when omega has order 2^L; it panics on every other length.", "quantifier": "all L, all lists, all vector spaces (field or curve group)", "why_tests_cant": "exact for every size and every input", "anchors": ["halo2_proofs/src/arithmetic.rs: best_fft, bitreverse"]}
{"id": "C58", "title": "Changes of basis are inverse to evaluation", "statement": "For every domain EvaluationDomain::new builds, lagrange_to_coeff yields a polynomial with the given values on the domain, and coeff_to_extended_part and coeff_to_extended yield its values on the shifted domains.", "quantifier": "all degrees and sizes admitted by the field, all polynomials", "why_tests_cant": "sizes up to 2^28", "anchors": ["halo2_proofs/src/poly/domain.rs: lagrange_to_coeff, coeff_to_extended, coeff_to_extended_part, distribute_powers_zeta"]}
{"id": "C59", "title": "The quotient polynomial is recovered", "statement": "From the values of (x^n - 1) h(x) on all parts of the extended domain, extended_from_lagrange_vec, divide_by_vanishing_poly and extended_to_coeff return exactly the coefficients of h.", "quantifier": "all degrees, sizes and polynomials h of n (j - 1) coefficients", "why_tests_cant": "sizes up to 2^28", "anchors": ["halo2_proofs/src/poly/domain.rs: extended_from_lagrange_vec, divide_by_vanishing_poly, extended_to_coeff"]}
{"id": "C60", "title": "Evaluation and division by a linear factor", "statement": "eval_polynomial is the sum of a_i x^i; kate_division(a, b) is the quotient of a by x - b, one coefficient shorter, and panics on the empty polynomial only.", "quantifier": "all polynomials and points", "why_tests_cant": "identity of polynomials of every degree", "anchors": ["halo2_proofs/src/arithmetic.rs: eval_polynomial, kate_division"]}
{"id": "C61", "title": "Interpolation", "statement": "lagrange_interpolate through distinct points returns the unique polynomial with as many coefficients as points and the given values.", "quantifier": "all numbers of points, all distinct points, all values", "why_tests_cant": "uniqueness is about all polynomials", "anchors": ["halo2_proofs/src/arithmetic.rs: lagrange_interpolate"]}
{"id": "C62", "title": "Multi-exponentiation is the linear combination", "statement": "best_multiexp with any scalars and bases of equal number is the sum of the scalar multiples, for every window size.", "quantifier": "all lists of scalars and points of any group of the field's order", "why_tests_cant": "all 256-bit scalars", "anchors": ["halo2_proofs/src/arithmetic.rs: best_multiexp, multiexp_serial"]}
{"id": "C63", "title": "Commitments evaluate at the secret", "statement": "Parameters are made exactly for secrets off the domain; commit yields [p(s)]G and commit_lagrange yields the commitment of the interpolating polynomial; downsized parameters are the parameters set up at the smaller size.", "quantifier": "all sizes, secrets, polynomials, groups", "why_tests_cant": "all secrets", "anchors": ["halo2_proofs/src/poly/kzg/commitment.rs: unsafe_setup_with_s, commit, commit_lagrange, downsize", "halo2_proofs/src/arithmetic.rs: g_to_lagrange"]}
{"id": "C64", "title": "Openings are binding", "statement": "If the SHPLONK verifier accepts openings of KZG commitments for enough challenges y, v, u and enough secrets, every claimed value is the value of the committed polynomial, provided claims about the same commitment and point agree.", "quantifier": "all polynomials, points, claims and all provers whose answers are polynomials", "why_tests_cant": "quantifies over all provers and secrets", "anchors": ["halo2_proofs/src/poly/kzg/multiopen/shplonk/verifier.rs: verify_proof", "halo2_proofs/src/poly/kzg/multiopen/shplonk.rs: construct_intermediate_sets", "halo2_proofs/src/poly/kzg/msm.rs: check"]}
{"id": "C65", "title": "Honest openings are accepted", "statement": "The polynomials the SHPLONK prover computes are accepted by the verifier for all challenges with u outside the opened points, also with shrunk parameters.", "quantifier": "all polynomials of the circuit's size, all sets of queries, all challenges", "why_tests_cant": "all combinations of points per polynomial", "anchors": ["halo2_proofs/src/poly/kzg/multiopen/shplonk/prover.rs: create_proof", "halo2_proofs/src/poly/kzg/multiopen/shplonk/verifier.rs: verify_proof"]}
{"id": "C66", "title": "Every claimed opening is checked", "statement": "The verifier's decision depends on every claim it is given.", "quantifier": "all lists of claims", "why_tests_cant": "concerns lists with repeated points", "anchors": ["halo2_proofs/src/poly/kzg/multiopen/shplonk.rs: construct_intermediate_sets"]}
{"id": "C67", "title": "Only true openings are accepted", "statement": "Whatever is known about the parameters, no false claim can be opened.", "quantifier": "all parameters, including those made from a known secret", "why_tests_cant": "a forged proof has to be constructed", "anchors": ["halo2_proofs/src/poly/kzg/commitment.rs: unsafe_setup_with_s", "ckb_bf_base/src/lib.rs: GOD_PRIVATE_KEY", "halo2_proofs/src/poly/kzg/multiopen/shplonk/verifier.rs: verify_proof"]}
{"id": "C68", "title": "Prover and verifier agree on the transcript", "statement": "What the prover writes the verifier reads: the same points, scalars and challenges in the same order with the same bytes absorbed; and everything the verifier reads could have been written.", "quantifier": "all sequences of points, scalars and challenges, all hashes", "why_tests_cant": "all conversations", "anchors": ["halo2_proofs/src/transcript/blake2b.rs: Blake2bRead, Blake2bWrite"]}
{"id": "C69", "title": "Challenges bind what came before", "statement": "The challenges x and u are the hash of a transcript that determines the key, the program, the input, all messages and the proof bytes read so far.", "quantifier": "all keys, programs, inputs, proofs", "why_tests_cant": "a statement about all pairs of proofs", "anchors": ["halo2_proofs/src/plonk/verifier.rs: verify_proof", "halo2_proofs/src/transcript/blake2b.rs: squeeze_challenge, common_point, common_scalar"]}
{"id": "C70", "title": "Proofs have no slack", "statement": "An accepted proof has exactly the size the key determines.", "quantifier": "all keys, statements, byte strings", "why_tests_cant": "all byte strings", "anchors": ["halo2_proofs/src/plonk/verifier.rs: verify_proof", "ckb_bf_verifier/src/main.rs: program_entry"]}
{"id": "C71", "title": "Public columns are bound", "statement": "Different public columns lead to different transcripts.", "quantifier": "all lists of columns", "why_tests_cant": "needs a pair chosen adversarially", "anchors": ["halo2_proofs/src/plonk/verifier.rs: 81-90"]}
{"id": "C72", "title": "The verifier panics only for unlucky challenges", "statement": "With a complete key the verifier of proof bytes returns for every byte string, unless x lies on the domain or u is one of the opened points.", "quantifier": "all keys, statements, byte strings, hashes", "why_tests_cant": "the challenges that panic have negligible probability", "anchors": ["halo2_proofs/src/plonk/verifier.rs: verify_proof", "halo2_proofs/src/plonk/vanishing/verifier.rs: verify", "halo2_proofs/src/poly/kzg/multiopen/shplonk/verifier.rs: verify_proof"]}
{"id": "C73", "title": "Parameters of the witness cannot be abused", "statement": "Whatever parameters the transaction supplies, the on-chain program accepts true statements only.", "quantifier": "all parameters, keys, programs, inputs, proofs", "why_tests_cant": "the parameters are chosen by the attacker", "anchors": ["ckb_bf_verifier/src/main.rs: program_entry", "halo2_proofs/src/poly/kzg/msm.rs: check", "halo2curves/src/bn256/engine.rs: multi_miller_loop"]}
{"id": "C74", "title": "Proof bytes cannot be forged", "statement": "No byte string is accepted for a false statement, whatever is known about the parameters.", "quantifier": "all byte strings, also with a known secret", "why_tests_cant": "a forged proof has to be constructed", "anchors": ["ckb_bf_base/src/lib.rs: GOD_PRIVATE_KEY", "halo2_proofs/src/plonk/verifier.rs: verify_proof"]}
{"id": "C75", "title": "Keys and proofs of runs fit", "statement": "The verifying key of every completed run of a program with instructions takes at most 4096 bytes and a proof for it at most 8192, so the on-chain program reads both and its exit code is the verdict on the proof.", "quantifier": "all programs, inputs, completed runs, circuit sizes, commitments", "why_tests_cant": "the size of a key depends on which selectors share a column, that is, on the run", "anchors": ["ckb_bf_verifier/src/main.rs: program_entry", "halo2_proofs/src/plonk/circuit/compress_selectors.rs: process", "halo2_proofs/src/plonk.rs: VerifyingKey::write"]}
{"id": "C76", "title": "Expression graphs compute the expressions", "statement": "Evaluator::new turns the gates and lookups of a constraint system into flat lists of calculations that share constants, rotations and intermediate results; evaluating the list of the gates gives Horner's rule in y over the values of all gate polynomials at a row, and evaluating the list of a lookup gives (compressed inputs + beta)(compressed table + gamma); building the lists panics exactly when a selector that is not scaled by zero is left.", "quantifier": "every constraint system, every assignment of every size, every row, every challenge", "why_tests_cant": "sharing of sub-expressions depends on the shape of all expressions of the circuit at once; a test covers one circuit", "anchors": ["halo2_proofs/src/plonk/evaluation.rs: Evaluator::new", "halo2_proofs/src/plonk/evaluation.rs: GraphEvaluator::add_expression", "halo2_proofs/src/plonk/evaluation.rs: GraphEvaluator::evaluate"]}
{"id": "C77", "title": "Proving keys fit verifying keys", "statement": "Whenever keygen_vk succeeds for a run, keygen_pk succeeds with its result; the columns of the proving key commit to the points of the verifying key, its polynomials take the values of those columns on the rows, and l_0, l_last and l_active are the indicators of the first row, of the last usable row's successor and of the usable rows.", "quantifier": "every trace and every circuit size below 2^63", "why_tests_cant": "the two keys are computed by separate code from separate syntheses of the circuit; equality for all traces is a statement about both", "anchors": ["halo2_proofs/src/plonk/keygen.rs: keygen_pk", "halo2_proofs/src/plonk/permutation/keygen.rs: build_pk"]}
{"id": "C78", "title": "The prover's numerator is the verifier's combination", "statement": "evaluate_h, which works in parts on the extended coset, with rotations inside each part and sums of graphs, permutation and lookup terms in a fixed order, returns at every point of the coset exactly the value that the verifier's list of expressions combines to with y when it is given the evaluations of the same polynomials at that point.", "quantifier": "every generated key, all polynomials of the right number and length, all challenges, every point of the coset", "why_tests_cant": "prover and verifier list the constraints in two independent pieces of code; a wrong order or sign only shows for some circuits", "anchors": ["halo2_proofs/src/plonk/evaluation.rs: Evaluator::evaluate_h", "halo2_proofs/src/plonk/verifier.rs: verify_proof", "halo2_proofs/src/plonk/permutation/verifier.rs: expressions", "halo2_proofs/src/plonk/lookup/verifier.rs: expressions"]}
{"id": "C79", "title": "Honest provers find the quotient", "statement": "For a satisfying assignment and the columns that the prover's code computes from it, dividing the numerator by the vanishing polynomial on the coset, interpolating, and cutting into pieces succeed, and the pieces make every check of the verifier hold at every point off the rows, unless a challenge makes a denominator of a running product zero.", "quantifier": "every generated key, every satisfying assignment, all lucky challenges, every point x with x^n <> 1", "why_tests_cant": "the division is done on a finite coset; that the result is the quotient everywhere is a degree argument", "anchors": ["halo2_proofs/src/plonk/vanishing/prover.rs: construct", "halo2_proofs/src/poly/domain.rs: divide_by_vanishing_poly", "halo2_proofs/src/poly/domain.rs: extended_to_coeff"]}
{"id": "C80", "title": "Honest runs are provable", "statement": "For every completed run that fits the circuit keygen_vk and keygen_pk succeed, and create_proof, whatever its random numbers, either meets a challenge x on the domain or a challenge u at an opened point, or returns a proof; this proof has exactly the size the key determines and verify_proof accepts it, also with parameters shrunk to a smaller size, unless a challenge made a denominator of a running product zero; for every theta at most n values of beta and 17n values of gamma do that.", "quantifier": "all programs, inputs, completed runs, build profiles, circuit sizes from 2^9 to 2^24, hashes, groups, pairings, secrets and random numbers", "why_tests_cant": "a test creates single proofs with the real hash; the theorem is about all runs and shows that failures need particular challenges", "anchors": ["halo2_proofs/src/plonk/prover.rs: create_proof", "halo2_proofs/src/plonk/verifier.rs: verify_proof", "halo2_proofs/src/poly/kzg/multiopen/shplonk/prover.rs: create_proof", "ckb_bf_prover/src/main.rs: main"]}
{"id": "C81", "title": "Honest transactions are accepted", "statement": "The transaction witness made of the shrunk parameters, the verifying key, the created proof, the code and the input makes the on-chain program exit with 0, for every completed run of a program below 1024 words on an input below 1024 bytes, under the conditions on challenges of the previous property.", "quantifier": "all programs, inputs, completed runs, build profiles, circuit sizes from 2^9 to 2^24, hashes, groups, pairings, secrets and random numbers", "why_tests_cant": "joins compiler, interpreter, circuit, keys, prover, serialisation, buffers and verifier; a test follows one run", "anchors": ["ckb_bf_verifier/src/main.rs: program_entry", "ckb_bf_prover/src/main.rs: main", "halo2_proofs/src/plonk/prover.rs: create_proof"]}
{"id": "C82", "title": "The whole protocol is an argument of satisfaction", "statement": "Consider the protocol in which the prover commits to polynomials, the verifier sends the challenges of all rounds including those of the opening argument, and the verifier's decision is the one verify_proof takes on the bytes. Whoever answers enough challenges of every round and enough secrets of the set-up holds an assignment that satisfies the circuit; whoever holds one can answer; and verify_proof accepts bytes exactly when they say messages on which this decision is positive.", "quantifier": "every key whose queries are distinct, all groups with a pairing, all public columns of at most n values", "why_tests_cant": "soundness quantifies over all provers; a test can only try some", "anchors": ["halo2_proofs/src/plonk/verifier.rs: verify_proof", "halo2_proofs/src/poly/kzg/multiopen/shplonk/verifier.rs: verify_proof", "halo2_proofs/src/poly/kzg/strategy.rs: SingleStrategy", "halo2_proofs/src/poly/kzg/commitment.rs: commit"]}
{"id": "C83", "title": "What can be argued for with the project's keys", "statement": "For every key generated from a trace, the public columns and first-phase columns for which that protocol can be run are exactly those the circuit accepts.", "quantifier": "every trace, every key, all groups with a pairing, all public columns that fit the usable rows", "why_tests_cant": "ranges over all provers and all assignments", "anchors": ["halo2_proofs/src/plonk/verifier.rs: verify_proof", "halo2_proofs/src/plonk/keygen.rs: keygen_vk", "ckb_bf_base/src/main_config.rs: MainConfig"]}
{"id": "C84", "title": "Satisfying columns are enough for an accepted proof", "statement": "The code of create_proof, run with any columns that satisfy the circuit in place of those the project's circuit assigns, first-phase columns not depending on the challenges, meets a challenge x on the domain or a challenge u at an opened point, or writes a proof of the size the key determines that verify_proof accepts, unless a challenge made a denominator of a running product zero.", "quantifier": "every key of a trace, all public columns that fit the usable rows, all satisfying columns, all hashes, groups, pairings, secrets and random numbers, circuit sizes from 2^9 to 2^24", "why_tests_cant": "ranges over all provers that use columns of their own; a test tries the project's own witness only", "anchors": ["halo2_proofs/src/plonk/prover.rs: create_proof", "halo2_proofs/src/plonk/verifier.rs: verify_proof", "ckb_bf_base/src/main_config.rs: MainConfig"]}
{"id": "C85", "title": "Accepted transactions show completed runs", "statement": "A transaction that the on-chain program accepts shows that the program in it runs to completion on the input in it, with the output it shows.", "quantifier": "all programs, inputs, outputs, keys of completed runs, proofs", "why_tests_cant": "honest tests only ever submit transactions of completed runs", "anchors": ["ckb_bf_verifier/src/main.rs: program_entry", "ckb_bf_base/src/main_config.rs: MainConfig", "halo2_proofs/src/plonk/prover.rs: create_proof"]}
{"id": "C86", "title": "Curve arithmetic is the chord-and-tangent law", "statement": "Addition, doubling, negation and subtraction of Jacobian and affine points in the curve macro compute the chord-and-tangent law of y^2 = x^3 + b on the points the coordinates stand for, in all cases including infinity, equal and opposite points; conversions keep the point, the equality tests decide equality of points and the membership tests decide membership.", "quantifier": "all fields in which the curve is not singular, all coordinates of points on the curve, all representatives", "why_tests_cant": "tests compare random points, and random points never hit the exceptional cases", "anchors": ["halo2curves/src/derive/curve.rs: new_curve_impl"]}
{"id": "C87", "title": "Points of a curve are a commutative group", "statement": "For points on the curve the code's addition is associative and commutative up to the code's equality test, the identity is neutral, negation gives inverses, doubling is adding a point to itself, and results stay on the curve.", "quantifier": "all fields in which the curve is not singular, all triples of points", "why_tests_cant": "associativity ranges over triples of points, with many exceptional cases", "anchors": ["halo2curves/src/derive/curve.rs: new_curve_impl"]}
{"id": "C88", "title": "Scalar multiplication, sums and batch normalisation", "statement": "Multiplying a point by a scalar adds it to itself as often as the scalar's canonical bytes say; Sum adds the points of a list; batch_normalize returns every point's affine coordinates, with points at infinity anywhere in the batch, and panics exactly on slices of different lengths.", "quantifier": "all points on the curve, all byte strings, all lists", "why_tests_cant": "256-bit scalars and arbitrary batches", "anchors": ["halo2curves/src/derive/curve.rs: Mul", "halo2curves/src/derive/curve.rs: batch_normalize"]}
{"id": "C89", "title": "G1 is a vector space over the scalar field", "statement": "All points of y^2 = x^3 + 3 over Fq are multiples of the generator (1, 2), their order divides the prime r, and they are a vector space over Fr. Affine coordinates in keys and proofs correspond to the points. Every bilinear map on G1 that does not vanish at the generators makes the pairing check of the verifier decide whether one point is s times another.", "quantifier": "all points of the curve, all scalars, all bilinear maps", "why_tests_cant": "the group has about 2^254 elements", "anchors": ["halo2curves/src/bn256/curve.rs: G1", "halo2_proofs/src/poly/kzg/msm.rs: check"]}
{"id": "C90", "title": "Curve arithmetic on Montgomery limbs", "statement": "The curve macro instantiated with the limb arithmetic of Fq computes the group law of G1 on the points the limb vectors stand for, scalar multiplication with the canonical bytes of an Fr limb vector multiplies by its value, and to_affine gives exactly the stored coordinates.", "quantifier": "all limb vectors that represent points, all scalars", "why_tests_cant": "limb vectors and coordinates are unbounded in number and have exceptional cases", "anchors": ["halo2curves/src/derive/curve.rs: new_curve_impl", "halo2curves/src/bn256/fq.rs: Fq", "halo2curves/src/bn256/curve.rs: G1"]}
{"id": "C91", "title": "Completed runs are accepted with commitments in G1", "statement": "With commitments in G1 and a bilinear map that does not vanish at the generators, for every secret that the set-up accepts the parameters exist and every completed run that fits gets keys, and a proof that the on-chain program accepts unless a challenge is unlucky or makes a denominator zero.", "quantifier": "all set-up secrets, hashes, bilinear maps, programs, inputs, random numbers, circuit sizes from 2^9 to 2^24", "why_tests_cant": "joins curve arithmetic with the whole proof system", "anchors": ["ckb_bf_verifier/src/main.rs: program_entry", "halo2_proofs/src/plonk/prover.rs: create_proof", "halo2curves/src/bn256/curve.rs: G1"]}
{"id": "C92", "title": "The extension fields are fields with their defined products", "statement": "Fq2, Fq6 and Fq12 are fields. Every way the code has to multiply, square, double, invert, conjugate or multiply by sparse elements gives the textbook result of the tower with u^2 = -1, v^3 = 9 + u, w^2 = v, also on the limb vectors.", "quantifier": "all elements", "why_tests_cant": "there are about 2^3048 elements, and that 9 + u has no cube or square root is a fact about exponents of 500 bits", "anchors": ["halo2curves/src/bn256/fq2.rs: Fq2", "halo2curves/src/bn256/fq6.rs: Fq6", "halo2curves/src/bn256/fq12.rs: Fq12"]}
{"id": "C93", "title": "Square roots in Fq2", "statement": "Fq2::sqrt returns a square root whenever one exists and None exactly if there is none, also on limbs.", "quantifier": "all elements", "why_tests_cant": "the algorithm branches on conditions that random elements never meet", "anchors": ["halo2curves/src/bn256/fq2.rs: sqrt"]}
{"id": "C94", "title": "Frobenius maps and cyclotomic squares", "statement": "frobenius_map(i) of Fq2, Fq6 and Fq12 is the power q^i for every i, so all tables of constants are right, and cyclotomic_square is the square of each element whose order divides q^4 - q^2 + 1.", "quantifier": "all elements, all exponents i", "why_tests_cant": "an entry used only for rare exponents can be wrong without a test noticing", "anchors": ["halo2curves/src/bn256/fq12.rs: frobenius_map, cyclotomic_square", "halo2curves/src/bn256/fq6.rs: frobenius_map, FROBENIUS_COEFF_FQ6_C1"]}
{"id": "C95", "title": "Bytes of Fq2 elements", "statement": "The bytes of an Fq2 element are its coordinates in little endian and from_bytes reads exactly these back; from_bytes returns None on bytes that are not canonical.", "quantifier": "all elements, all byte strings of length 64", "why_tests_cant": "the rejected strings are a thin part of all strings", "anchors": ["halo2curves/src/bn256/fq2.rs: to_bytes, from_bytes, from_repr"]}
{"id": "C96", "title": "is_zero of Fq6 and Fq12 is true of zero only", "statement": "is_zero of Fq6 and of Fq12 returns true exactly for zero.", "quantifier": "all elements", "why_tests_cant": "random elements do not have two coordinates zero", "anchors": ["halo2curves/src/bn256/fq6.rs: is_zero", "halo2curves/src/bn256/fq12.rs: is_zero"]}
{"id": "C97", "title": "Final exponentiation", "statement": "final_exponentiation raises to the power (q^12 - 1) / r, panics on zero and on nothing else, also on limbs.", "quantifier": "all elements of Fq12", "why_tests_cant": "the exponent has 2790 bits and the code reaches it through a chain of Frobenius maps and powers of x", "anchors": ["halo2curves/src/bn256/engine.rs: final_exponentiation"]}
{"id": "C98", "title": "Products of Miller loops", "statement": "multi_miller_loop never panics on prepared points and is the product of the loops of its terms, so the pairing check succeeds exactly if each pairing has a value, and gives the product of the pairings; on limbs is_identity of it tells exactly if this product is 1.", "quantifier": "all lists of points", "why_tests_cant": "the number of terms is unbounded and the coefficients are consumed in step", "anchors": ["halo2curves/src/bn256/engine.rs: multi_miller_loop, from_affine, ell, pairing"]}
{"id": "C99", "title": "The target group", "statement": "Every value of the pairing is an r-th root of 1. On these the operations of Gt are those of a multiplicative group: addition is the product, negation the inverse, the multiple by a scalar the power, the identity is 1.", "quantifier": "all points, all roots of unity, all scalars", "why_tests_cant": "conjugation is an inverse on a thin subgroup only and the scalar loop skips the top bit", "anchors": ["halo2curves/src/bn256/engine.rs: Gt"]}
{"id": "C100", "title": "G2 is a group and the code computes it", "statement": "G2 is the curve y^2 = x^3 + b over Fq2 with b (9 + u) = 3, its points are a group, its generator is on it, and addition, doubling, negation, mixed addition, conversion, comparison, membership and scalar multiples computed on limbs are those of the group.", "quantifier": "all points in all coordinates, all scalars", "why_tests_cant": "exceptional cases of the formulas and unbounded coordinates", "anchors": ["halo2curves/src/bn256/curve.rs: G2", "halo2curves/src/derive/curve.rs: new_curve_impl"]}
{"id": "C101", "title": "The pairing is the optimal ate pairing", "statement": "For every point of G1 and every point of order r of G2 the pairing returns, without panic, the value of Miller's algorithm for 6 x + 2 on the curve over Fq12 with the two further lines through the Frobenius images, to the power (q^12 - 1) / r; with a point at infinity it returns 1; on limbs it returns the same.", "quantifier": "all points of the two groups, all coordinates", "why_tests_cant": "the value is a number of 3048 bits that no independent source gives; exceptional steps of the formulas are not met by random points", "anchors": ["halo2curves/src/bn256/engine.rs: from_affine, doubling_step, addition_step, ell, multi_miller_loop, pairing"]}
