# Formal model of ckb-bf-zkvm: design

Source: cryptape/ckb-bf-zkvm, read as text in `/repo` (never built or run).
Prover: Rocq/Coq 8.16.1. All files are under `rocq/theories`, logical root `Verif`.

Abbreviations used below: *VM* = `ckb_bf_vm`, *base* = `ckb_bf_base`,
*h2* = `halo2_proofs`, *curves* = `halo2curves`.

## Layers

A file named `*Model` holds definitions that follow the Rust code function by
function, each with the file and lines it models. A file named `*Spec` holds the
vocabulary of the statements, written without looking at the model's helpers. A
file named `Prop_*` holds the property theorems only, each closed by `exact`,
followed by `Print Assumptions` and a concrete case (`Example`). Everything else
is proofs.

| Subject | Model | Specification | Property file |
|---|---|---|---|
| Field Fr as integers modulo r | `Field`, `Base` | `Moduli`, `PocklingtonZ` | `Prop_Field` |
| Compiler, interpreter, matrices (VM) | `VMModel` | `BFSpec`, `CompileSpec`, `TraceSpec` | `Prop_Compile`, `Prop_Run`, `Prop_Trace` |
| halo2 front end: expressions, constraint system, floor planner, key generation and witness back ends (h2) | `Halo2Model` | `CircuitSpec`, `PlannerSpec` | `Prop_Circuit`, `Prop_Planner` |
| The Brainfuck circuit (base) | `CircuitModel` | `CircuitSpec`, `SoundSpec`, `RepairSpec`, `AlgebraSpec` | `Prop_Circuit`, `Prop_Sound`, `Prop_Repair`, `Prop_Algebra` |
| Montgomery limb arithmetic of Fr and Fq (curves) | `LimbModel` | `LimbSpec` | `Prop_Field` |
| Copy-constraint permutation (h2) | `PermModel` | `PermSpec` | `Prop_Perm` |
| Selector compression and its replay (h2) | `SelectorModel` | `SelectorSpec` | `Prop_Selector` |
| Byte formats: fields, points, expressions, parameters | `SerdeModel` | `SerdeSpec` | `Prop_Serde` |
| Evaluation domains (h2) | `DomainModel` | `DomainSpec` | `Prop_Serde` |
| Verifying keys: generation, writing, reading | `VkModel` | `VkSpec` | `Prop_Serde` |
| Verifier algebra (everything but commitments and transcript) | `IopModel` | `IopSpec` | `Prop_Iop` |
| Prover columns after the witness | `ProverModel` | `ProverSpec` | `Prop_Iop` |
| Polynomial arithmetic, commitments (h2) | `ArithModel`, `KzgModel` | `ArithSpec` | `Prop_Arith` |
| Multi-opening argument SHPLONK (h2) | `ShplonkModel` | `ShplonkSpec` | `Prop_Shplonk` |
| Transcript (h2) | `TranscriptModel` | `VerifierSpec` | `Prop_Verifier` |
| Verifier of proof bytes, whole on-chain program | `VerifierModel` | `VerifierSpec` | `Prop_Verifier` |
| Evaluation of the constraints by the prover, proving keys, proof bytes | `GraphModel`, `CreateModel` | `GraphSpec`, `CreateSpec` | `Prop_Graph`, `Prop_Create` |
| The proof protocol with its commitments | | `ArgueSpec` | `Prop_Argue` |
| Proofs made with columns of one's own | | `ForgeSpec` | `Prop_Forge` |
| Curve arithmetic (curves) | `CurveModel` | `CurveSpec` | `Prop_Curve` |
| Extension fields Fq2, Fq6, Fq12, G2 (curves) | `TowerModel` | `TowerSpec` | `Prop_Tower`, `Prop_Pairing` |
| Pairing (curves) | `PairingModel` | `TowerSpec`, `AteSpec` | `Prop_Pairing`, `Prop_Ate` |
| On-chain program and transaction witnesses | `EntryModel` | `EntrySpec` | `Prop_Entry` |

## Conventions

* A Rust panic is an explicit error value; a `Result::Err` is a different value.
* Loops are structural recursion or recursion on explicit fuel; running out of
  fuel is its own result, never confused with a normal one.
* Integer conversions that can lose information are written with an explicit
  `mod`. Where the debug and the release profile differ (overflow checks), the
  profile is a parameter and theorems hold for both unless they say otherwise.
* `Vec`, slices and byte buffers are lists. Running out of memory is not
  modelled, except that the tape cannot exceed the largest `Vec` (2^57 cells).

## How each property is proved

* C01-C03: big-step semantics on syntax trees (`BFSpec`); simulation both ways
  between trees, jump-annotated words and the interpreter loop.
* C04-C07: bracket matching on positions. C06 and C07 are refuted in general; the
  true halves are proved.
* C08-C11: invariants over reachable interpreter states; the sort is characterised
  by sortedness, permutation and stability.
* C12: `configure` and `load_table` are run symbolically; the layout, activations
  and copies are characterised for every trace; the honest assignment satisfies
  all gates, lookups and copies for all challenges.
* C13, C14: refuted with concrete programs; the failing cases characterised.
* C15, C18, C19, C20: soundness claims, refuted with assignments that satisfy the
  circuit for every challenge.
* C16, C17: local soundness of the gates.
* C21, C39, C40: a list of extra constraints. With them any satisfying assignment
  is an execution of the public program (C39) and honest runs still satisfy the
  circuit (C40), when the running sums start from a non-zero value; with a zero
  start this is false (C21).
* C22, C23: root counting over Fr.
* C24-C27: byte-level model of the on-chain program; proof verification is an
  arbitrary function.
* C28, C37, C45-C49: byte formats, round trips and refusals.
* C29-C33, C41-C44: Pocklington certificates for both moduli; carry-exact
  proofs of the limb algorithms against arithmetic modulo the field.
* C34, C42: the union of cycles produced by `copy` is the equivalence closure of
  the declared pairs; cell names delta^i omega^j are distinct.
* C35, C36: compression replaces selectors by expressions with the same value up
  to a non-zero factor on every row; replay gives the same constraint system.
* C38: no two regions of the floor planner share a cell.
* C50: polynomials of bounded degree that agree at enough points are equal, once
  per round of challenges, from the last round to the first.
* C51: every constraint vanishes on the rows for the prover's columns, so the
  combination is a multiple of the vanishing polynomial.
* C52-C54: C50 and C51 for generated keys, through selector compression (C35) and
  the permutation (C34, C42).
* C55, C56: the algorithms themselves.
* C57-C63: loop invariants of the transform over an arbitrary vector space, then
  orthogonality of the powers of a root of unity; digit-wise induction for the
  multi-exponentiation.
* C64-C67: the sets the verifier forms are characterised for every list of
  queries; its decision is one equation between scalars. For enough secrets it is
  an identity of polynomials, evaluated at u, then at each point.
* C68-C74: every reading step absorbs and consumes a number of bytes known
  beforehand, depends on nothing else, and panics under stated conditions only;
  these facts compose along the verifier.
* C75: of the 15 selectors all but four are enabled on the first row, so at most
  five share a column; every selector is charged for the bytes of its expression.
* C76: every calculation added to a graph refers to earlier ones and keeps their
  values; C78: each part of the coset is a row-wise evaluation, and the terms are
  the verifier's functions at that point.
* C77, C79: changes of basis (C57-C59) applied to the columns; the numerator is
  zero on all rows, so its quotient is a polynomial and the coset determines it.
* C80, C81: every writing step of the prover is paired with the reading step of
  the verifier and leaves the same transcript; the values read then satisfy the
  checks by C79 and the opening argument by C65.
* C82: the opening argument is run with commitments for many secrets, which binds
  every evaluation (C64); the evaluations then satisfy the checks of C50. The
  converse answers every challenge with the honest prover's polynomials. C83
  joins this with C52 for the keys of the project.
* C84 is C80 with arbitrary columns; C85 fills them as C15 does for the circuit.
* C86 - C91 (`CurveLaw`, `CurveFacts`, `CurveTimes`): the law's associativity is
  proved once for any field by case analysis on which of the points share a line;
  the code's formulas are compared with it in the field. That G1 has order r
  (`CurveOrder`, `G1Chain`, `G1Group`): a chain of 352 doublings and additions with
  given slopes, each checked by multiplication, shows that r times the generator is
  infinity; a point that is no multiple of the generator would give three disjoint
  cosets with more points than the curve can have. Limbs (`CurveLimbs`, `G1Code`): the
  macro's functions preserve any correspondence of base fields.
* C92 - C96: the code's products are compared with the textbook ones by `ring`
  (`TowerFacts`). The tower consists of fields (`TowerFq`) because xi is neither a
  square nor a cube: powers of its norm, checked by a chain of given quotients
  (`XiChain`). Frobenius (`TowerFrob`): the q-th power is additive and multiplicative
  and the tables are checked at u, v, w. Square roots: `Fq2Root`.
* C97 - C100: elements to integer powers with Frobenius as the power q turn the chain
  of `final_exponentiation` into an identity of exponents (`FinalExp`). The loops of
  several terms run in step (`MillerFacts`). `TowerLimbs`: the functions preserve any
  correspondence of base fields, so they compute the same on limbs. `G2Group`: the
  base field Fq2 meets the hypotheses of C86 - C88.
* C101: each step of `from_affine` adds points and its coefficients are the line at
  P up to a factor in Fq2 (`AteSteps`), the map from the twist to the curve over Fq12
  is a homomorphism (`AteTwist`), the factors vanish in the final power (`AteLoop`,
  `AteFacts`). No step is exceptional since Q has order r and Frobenius multiplies it
  by q: the multiples that would have to be infinity are not divisible by r. That the
  points of order r of G2 are of this kind is the missing part.

## Trusted base

1. Coq's kernel (and `coqchk`).
2. Axioms: none. `Print Assumptions` prints `Closed under the global context`
   for every theorem listed in `MANIFEST.json`. (`coqchk` on the whole library
   additionally lists the axioms of `Coq.ssr.ssrunder`, a standard-library file
   loaded by `ssreflect`-based imports; no theorem depends on them.)
3. That the model says what the Rust code does. The definitions cite the lines
   they model; simplifications are listed at the head of each model file and
   below.
4. That the specification files say what the English properties say.

### Modelled

* VM `code.rs`, `interpreter.rs`, `matrix.rs`: complete, except the printing
  functions and the commented-out dummy-row code.
* base `main_config.rs`, `processor_table.rs`, `memory_table.rs`,
  `instruction_table.rs`, `input_table.rs`, `output_table.rs`,
  `program_table.rs`, `range_table.rs`, `utils.rs`: complete.
* `ckb_bf_verifier/src/main.rs`: complete; `ckb_std` system calls follow their
  documentation; `verify_proof` is a parameter in `EntryModel` and filled in by `VerifierModel`.
* `ckb_bf_prover/src/main.rs`: choice of k, public columns, witness bytes.
* h2 `plonk/circuit.rs` (expressions, constraint system, compression, replay,
  serialisation), `plonk/circuit/compress_selectors.rs`,
  `circuit/floor_planner/single_pass.rs`, `circuit/layouter.rs` (shapes),
  `plonk/keygen.rs` (`Assembly`, `keygen_vk`), `plonk/prover.rs` (witness
  collection), `plonk/permutation/keygen.rs` (`Assembly`, the values of the
  polynomials), `poly/domain.rs` (`new`), `plonk.rs` and
  `plonk/permutation.rs` (key bytes), `helpers.rs`, `poly/kzg/commitment.rs`
  (`write_custom`, `shrink`), `plonk/verifier.rs`, `plonk/vanishing/verifier.rs`,
  `plonk/permutation/verifier.rs`, `plonk/lookup/verifier.rs` (everything after
  the challenges are known, up to the list of openings), `plonk/lookup/prover.rs`
  and `plonk/permutation/prover.rs` (values of the committed columns, written
  evaluations), `poly/domain.rs` (`l_i_range`, `rotate_omega`, the changes of
  basis), `arithmetic.rs` (`best_fft`, `best_multiexp`, `g_to_lagrange`,
  `eval_polynomial`, `kate_division`, `lagrange_interpolate`, `powers`),
  `poly/kzg/commitment.rs` (`unsafe_setup_with_s`, `commit`, `commit_lagrange`,
  `downsize`), `poly/kzg/multiopen/shplonk.rs`, `shplonk/prover.rs`,
  `shplonk/verifier.rs`, `poly/kzg/msm.rs`, `poly/kzg/strategy.rs`
  (`SingleStrategy`), `transcript.rs` and `transcript/blake2b.rs` (the hash is a
  parameter), `plonk/verifier.rs` with the `read_*` functions of its
  sub-protocols, `plonk/evaluation.rs`, `plonk/keygen.rs` (`keygen_pk`),
  `plonk/prover.rs` (`create_proof` for one circuit) with
  `plonk/vanishing/prover.rs`.
* curves `arithmetic.rs` (`adc`, `sbb`, `mac`), `derive/field.rs`,
  `bn256/fr.rs`, `bn256/fq.rs` (arithmetic, bytes, constants, `sqrt` of Fq),
  `derive/curve.rs` (affine byte formats, curve equation, arithmetic of Jacobian
  and affine points without `batch_add`), `bn256/curve.rs` (G1, G2), `io.rs`,
  `bn256/fq2.rs`, `fq6.rs`, `fq12.rs` (arithmetic, Frobenius, square roots and bytes of
  Fq2), `bn256/engine.rs` (prepared points, Miller loop, final exponentiation, `Gt`).

### Not modelled

* That the pairing is bilinear and not degenerate (its code is modelled, C97 - C101;
  where it matters, C89 and C91, the pairing is a parameter). The order of G2's
  generator, so that no point is shown to meet the hypothesis of C101 on Q. The `asm`
  variants, parallel code paths (`multicore`), random elements
  and hashing to curves. In C60 - C85 groups are parameters (vector spaces over Fr);
  C89 shows that G1 is one and C91 is C81 for it. Stored coordinates that are not on
  the curve, which the raw formats do not reject, are taken to be infinity in C91.
* `accepts` (`IopSpec`) takes an opening to be correct if and only if the committed
  polynomial has that value; C82 and C83 replace it by the decision the verifier of
  proof bytes takes, for provers whose points commit to polynomials they know.
  Challenges and the secret of the set-up are inputs there; soundness counts how
  many of them must be answered instead of computing a probability.
  C69 shows which inputs the hash gets, not that it behaves like a random function.
* Blake2b is any function to 64 bytes; that the key's digest is injective is a
  hypothesis where it is needed (C69).
* Where blinding randomness comes from (the fork replaces it by constants; here
  it is any function) and zero knowledge.
* The concrete case of C80 and C81 uses the group with one element, that of C91
  uses G1 with a second group that holds scalars; the theorems are for every group.
* The digest of a verifying key that opens the transcript (a parameter).
* `dev` tooling, tests, examples, command-line parsing, the CKB transaction
  container and its signature.
* `ff`, `group`, `pasta_curves`, `ckb_std` are external crates: `pow`,
  `batch_invert`, `pow_vartime` and `load_witness` follow their documentation.

## Disagreements between the code and its claims

Each is a theorem named `..._refuted` unless marked otherwise.

### Compiler and prover

* An unmatched `[` is accepted by the compiler (C06); it leaves a zero jump word.
* Jump addresses are 16-bit: 65537 words wrap around in the release build (C07).
* An empty program makes the interpreter panic (precondition of C01, C02).
* A run that leaves input unread cannot be proved: the published length and the
  number of copied cells differ (C13).
* The chosen k has no room for some table sizes just below a power of two,
  because blinding rows are not counted (C14).

### Circuit

* Soundness fails (C15): for every key obtained from a terminating run, any
  public code, input and any output table are accepted with a suitable
  assignment, for all challenges. Causes, each exploited by a theorem:
  * the start cells of the permutation products and running sums are not
    constrained (C19: a product may start at zero);
  * `s_rs` is off on the last processor row, so the final sums of the processor
    are free (C20);
  * the last dummy row of the instruction table is free, so the public program
    is not bound;
  * the memory table has no order by cycle within a cell and no `mp_0 = 0` (C18);
  * the instruction table links neither `ni` to the next row nor `ip_0 = 0`;
  * the public length cells are only copied, never used.
* Running sums that start at zero cannot see leading zeros (C21).
* Output is not public at all.
* The `RepairSpec` conditions suffice (C39) and are met by honest runs (C40).

### Verifier and keys

* Parameters and verifying key come from the transaction, nothing pins them
  (C27). In particular the selector replacement expressions inside a key are
  arbitrary.
* The circuit compiled into a key depends on the trace lengths.
* The program crashes on an odd number of code bytes, on 1024 or more words and
  on 1024 input bytes (C25); failures can crash instead of returning -1 (C26).
* `Fq2::from_bytes` and `Fq2::from_repr` panic on bytes that are not canonical
  instead of returning `None` (C95).
* `is_zero` of Fq6 and of Fq12 ignores `c2` and is true of elements that are not zero
  (C96). The pairing does not call it.
* `RawBytes` reading does not check the curve equation, contrary to the
  documentation in `helpers.rs` (C46).
* Reading a key panics instead of failing on k >= 25, on truncation inside the
  selector assignments and on malformed constants (C48).
* In the release build the domain constructor accepts k = 63 through a masked
  shift (C49).
* The verifier does not bound the length of public columns. Entries whose
  positions differ by a multiple of n are added up (C54); the on-chain program
  takes columns of up to 1023 entries while n can be 512.
* Convincing proofs of wrong outputs and of diverging programs exist (C53): the
  circuit's gaps are not closed by the protocol.
  With the unchanged code of `create_proof`, other columns and the key of any
  completed run they become transactions that the on-chain program accepts: every
  program, every input, any output of the right length (C85). No knowledge of
  the setup secret is used. In C85 the groups are parameters, and a challenge on
  the domain or at an opened point, or one that makes a denominator zero, is excepted.
* `SelectorAssignment::read` ignores the format it was written in (C37).
* Parameters with k >= 31 are read back with another n (`C28_limit`).
* The prover's setup secret is the constant 42 (`ckb_bf_base/src/lib.rs:16`). With
  a known secret every claim about every commitment can be opened (C67).
  At the level of bytes: any proof without its last point can be completed (C74).
* The parameters come from the witness and are not absorbed by the transcript. If
  their two points of the second group are at infinity, the pairing check is
  empty and a proof of zero bytes is accepted for every program and input, unless
  a challenge happens to hit the domain or an opened point (C73).
* Points at infinity are accepted in proofs although the error message in
  `transcript.rs` says that they cannot be written (used in C73).
* Bytes behind a proof are ignored (C70).
* Where one public column ends and the next begins is not absorbed (C71). The
  project's columns start with their length, so programs and inputs are bound
  (C69).
* The verifier panics, instead of failing, if the challenge x is on the domain or
  the challenge u is one of the opened points (C72).
* The power x^n is computed with the n of the parameters, not of the key's domain.
* A second claim about the same commitment and point is not checked (C66).
* Blinding factors are constants (not a theorem: read off `plonk/prover.rs`).
* `VerifyingKey::to_bytes` can only panic: `bytes_length` is an explicit `panic!`
  (`plonk.rs:151-157`; not a theorem).

## Testing the theorems

`seeded/LOG.jsonl` records one line per wrong program: the definition edited, the
edit, the claim it breaks and the theorems that stopped proving. The experiment
admits every proof that fails in a scratch copy and then asks `Print Assumptions`
which property theorems depend on them.
For the edits of the tower and the pairing (`tw`, `pg`) only the theorems of
`Prop_Tower`, `Prop_Pairing` and `Prop_Ate` were asked; `pg13` did not finish.
