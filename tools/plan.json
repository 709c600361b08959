{
 "C01": [
  "decode_instruction, bit fields, immediates",
  "case split over opcode/funct fields against an independent list of encodings (RvSpec)"
 ],
 "C02": [
  "same",
  "arithmetic encoder in RvSpec; field-extraction lemmas on div/mod"
 ],
 "C03": [
  "execute_instruction and every helper",
  "independent integer ISA semantics (RvSpec.rv_exec); one lemma per instruction"
 ],
 "C04": [
  "step, set_register_value",
  "invariant over steps"
 ],
 "C05": [
  "store, step, run",
  "invariant over steps; a store to read-only memory is an error"
 ],
 "C06": [
  "store, memory_load",
  "finite-map reasoning and byte decomposition"
 ],
 "C07": [
  "mulh .. remu",
  "integer arithmetic against div/quot/rem of Z"
 ],
 "C08": [
  "step, Row / Aux, run",
  "induction over the run"
 ],
 "C09": [
  "ecall_halt, step",
  "direct, and induction over the run"
 ],
 "C10": [
  "ecall_read, read_bytes",
  "induction over the call sequence"
 ],
 "C11": [
  "ecall_read",
  "finite-map reasoning"
 ],
 "C12": [
  "ecall",
  "direct"
 ],
 "C13": [
  "ecall_poseidon2, hash_n_to_m_no_pad",
  "the permutation is a universally quantified variable; induction over chunks"
 ],
 "C14": [
  "extract_elf_data, Code::from, State::new",
  "list folds; the ELF container parser is the external `elf` crate, its segment table is the input"
 ],
 "C15": [
  "current_instruction, store",
  "invariant over steps"
 ],
 "C20": [
  "ADD table constraints and generate",
  "lifting of field equations over range-checked columns to Z"
 ],
 "C21": [
  "cpu/sub, signed_comparison, bitwise",
  "same; refutation by an explicit accepted table"
 ],
 "C22": [
  "cpu/mul",
  "same"
 ],
 "C23": [
  "cpu/div, cpu/shift",
  "same; refutations by explicit rows"
 ],
 "C24": [
  "cpu/stark, branches, jalr, ecall",
  "same, over consecutive rows"
 ],
 "C25": [
  "cpu/generation: every generate_*_row",
  "for every machine step, evaluation of all constraints on the generated row"
 ],
 "C26": [
  "binary selectors, one_hot",
  "sum of bits in the field"
 ],
 "C27": [
  "xor table and generation",
  "bit decomposition"
 ],
 "C28": [
  "bitshift table and generation",
  "induction over the trace with transition constraints"
 ],
 "C29": [
  "cpu_skeleton table and generation",
  "induction over the trace; completeness for every run of the machine model"
 ],
 "C30": [
  "register tables",
  "induction over a sorted trace, refinement to `last write`"
 ],
 "C31": [
  "memory table, memory init tables",
  "same"
 ],
 "C32": [
  "program ROM packing, InnerCpu / ProgramCpu lookups",
  "positional-number injectivity; CTL multiset argument"
 ],
 "C33": [
  "half/fullword tables + lookups",
  "byte splitting; completeness of generation from executions"
 ],
 "C34": [
  "rangecheck, rangecheck_u8 and their lookups",
  "multiset balance implies membership"
 ],
 "C35": [
  "blt_taken table and lookups",
  "explicit accepted system"
 ],
 "C36": [
  "cpu/memory, load/store lookups",
  "field lifting; explicit memory systems for the refutations"
 ],
 "C40": [
  "merkleize",
  "well-founded induction on the shift; termination measure"
 ],
 "C41": [
  "event tape canonical hash",
  "sortedness and permutation invariance"
 ],
 "C42": [
  "canonical order hints",
  "permutation algebra"
 ],
 "C43": [
  "mozakvm event tape",
  "induction over the emitted sequence"
 ],
 "C44": [
  "mozakvm call tape",
  "induction over the message list"
 ],
 "C45": [
  "native call tape, identity stack",
  "induction over nested call trees"
 ],
 "C46": [
  "poseidon padding",
  "list cancellation"
 ],
 "C47": [
  "Poseidon2Hash conversions",
  "little-endian byte decomposition"
 ],
 "C48": [
  "mozakvm event tape + merkleize",
  "uniqueness of the sorted permutation"
 ],
 "C49": [
  "mozakvm input tape + ECALL buffer",
  "state invariant over reads and seeks"
 ],
 "C50": [
  "guest bump allocator",
  "invariant over the allocation history"
 ],
 "C51": [
  "cli tape assembly",
  "composition of C42, C43, C48"
 ],
 "C52": [
  "the unbounded-recursion subcircuits as a least relation `acc` over verifier data and statements",
  "induction on acceptance gives the tree; tree induction gives completeness; explicit forged proof for the refutation"
 ],
 "C53": [
  "build_event_root leaf and branch circuits, `hash_event`, `byte_wise_hash`, forward-or-hash",
  "tree extraction (C52) and induction; injectivity of preimage layouts; the forged address is an explicit witness"
 ],
 "C54": [
  "merge leaf/branch circuits and the embedding subcircuit",
  "induction on the tree, uniqueness of roots from collision-freeness"
 ],
 "C55": [
  "verify_program, verify_tx leaf and branch circuits",
  "tree extraction, agreement by induction, events by C53/C54"
 ],
 "C56": [
  "accumulate_delta leaf and branch circuits, field arithmetic of flags and deltas",
  "induction on the tree with the description as invariant"
 ],
 "C57": [
  "match_delta leaf and branch circuits",
  "C56 plus case analysis of the leaf constraints"
 ],
 "C58": [
  "state_update leaf and branch circuits, addresses and summaries",
  "induction on height"
 ],
 "C59": [
  "verify_block circuit: base, height, state",
  "induction on acceptance with C60 as the step"
 ],
 "C60": [
  "verify_block circuit step",
  "C55, C57, C58 combined by root uniqueness"
 ],
 "C61": [
  "match_delta and accumulate_delta leaf constraints",
  "projection of C57; explicit counterexample proofs"
 ],
 "C62": [
  "node State: sparse tree, leaf kinds, apply_operation, finalize, get_state, with the proofs attached to nodes",
  "refinement: relation between the tree and a map of cells, preserved by every operation; induction on the history"
 ],
 "C63": [
  "the proofs attached to the tree's nodes, with the provers' own witness computation (leaf_prove, branch_prove)",
  "invariant: a node's proof is the statement its cells demand; explicit history for the stale-proof bug"
 ],
 "C64": [
  "aux values of every step function",
  "case split over instructions; frame lemmas for memory and registers"
 ],
 "C65": [
  "reduce_tree with its stack; merkleize from SdkModel",
  "stack invariant: powers of two, decreasing; numbered leaves form a trie; uniqueness of prefix roots"
 ],
 "C66": [
  "reduce_tree_by_address, event trees",
  "naturality in keys and values; groups as runs; induction on height; the SDK's steps keep the node's value"
 ],
 "C67": [
  "BranchAddress and its operations, shifts by 64 or more as panics",
  "bit arithmetic; each relation as an inequality of ranges"
 ],
 "C68": [
  "OngoingTxNode, insert_program, AddressPath",
  "state as a function of the set of ingested programs; invariant that a leaf stays blocked"
 ],
 "C69": [
  "merge_events with its nine comparison cases and the merge proofs' public inputs",
  "induction on fuel over tries labelled with partial addresses; the merge of sorted lists splits where the tries split"
 ],
 "C70": [
  "Matches: ongoing and ready accumulators, finalize through reduce_tree_by_address",
  "uniqueness of the address trie; at most three events per address combine as a left comb; invariant over histories with distinct addresses"
 ],
 "C71": [
  "storage_device rows, constraints, lookups and trace generation; CPU lookup",
  "consecutive-rows lemma over blocks of a read; multiplicities summed read by read"
 ],
 "C72": [
  "the seven tables linked to the CPU and memory tables",
  "call rows by lookup membership both ways; induction along the rows of a read under the missing chaining constraints; concrete accepted tables refute the claim without them"
 ],
 "C73": [
  "tape commitment table, generation, public sub-tables as lookups against the published values",
  "counting lookups; Permutation from equal multiplicities"
 ],
 "C74": [
  "the sponge, permutation and output-byte tables: rows, constraints, lookups, trace generation, padding",
  "induction over the blocks of a message; lookup multiplicities summed call by call; round functions equal the constraint maps up to the field"
 ],
 "C75": [
  "the three tables linked to the CPU, memory and register lookups",
  "induction backwards from a digest row to its start row under the missing chaining constraints; concrete accepted tables refute each claim without them"
 ],
 "C76": [
  "round constraints with S-box helper columns",
  "induction over the rounds; a forged last cube refutes the claim for every constant set"
 ],
 "C77": [
  "memory table generation with its sort and padding, both initial-memory tables, and every table contributing accesses",
  "an abstract history of byte values; the sorted list of a history satisfies the constraints; the executor's effect on memory gives such a history; lookup multiplicities summed table by table"
 ],
 "C78": [
  "generation of the ADD, BLTU, initial-register and three register tables with extraction, sort, split and padding",
  "an abstract history of register values; the sorted rows of a history satisfy the constraints; the executor's effect on registers gives such a history; multiplicities over the six looking tables"
 ],
 "C79": [
  "generation of the range-check, u8 range-check, program and program-multiplicity tables, and generate_traces as a whole; the constraints of all tables and the list of lookups as two records",
  "the completeness theorems of each table (C20, C25, C27-C29, C33, C71, C73, C74, C77, C78), grouping lemmas for the range-check tables, and multiplicity sums over the CPU, ADD and BLTU tables for skeleton and program"
 ],
 "C80": [
  "acceptance of a whole set of tables by a verifier (the records of C79 plus the program's ROM, initial memory and register tables and the public values); the executions of the VM model",
  "a concrete set of accepted tables of a program that never halts; and a simulation argument from the skeleton, lookups and per-instruction soundness theorems (C20-C24, C29-C33, C36) under named closings of the known gaps"
 ],
 "C81": [
  "the compression, the running sums, the constraints on them, the final sums, the reduced values of public sub tables, and the order in which openings are written and read; balance is the explicit check check_single_ctl",
  "the constraints force the last value to be the sum of multiplicity over compressed tuple; grouping rows by tuple and clearing denominators gives a polynomial in gamma with fewer roots than rows, non-zero when beta separates one tuple with a non-zero balance from the others (a root count in beta); counting of pairs and of lists of challenges"
 ],
 "C82": [
  "the eighteen lookups as lists of looking and looked tables in the order of the code, the public sub tables, and the verifier's comparison at one challenge on top of C81; the number of columns of each lookup",
  "each lookup is shown to be the explicit balance of C79/C80 after concatenation; the first lookup that does not balance gives the bound by C81, uniformly in the number of columns (at most 24)"
 ],
 "C83": [
  "expressions as nodes of an arena with references, the folding of integer constants in i64, the operators, the evaluator trait with its pure, circuit, counting and cached instances (state threaded explicitly, the two cache maps), build_packed and build_ext; plonky2's circuit as a list of gates and starky's constraint consumers as their defining formulas",
  "a value is assigned to each arena node by induction on the calls; one refinement lemma, for any evaluator whose operations preserve a relation between results and values that is stable under later states, covers the plain and the cached recursion; instances: equality for the pure evaluator, 'equal in every satisfying assignment of the circuit so far' for circuits; the count is bounded by the size of the value cache"
 ],
 "C84": [
  "typed columns as dense vectors of integers with checked arithmetic, sparse columns as lists of (index, coefficient) with the stable sort and the merge join of itertools, the translation, evaluation on rows, on column-major traces and in circuits (plonky2's inner_product_extension as gates), compose_ctl_with_challenge, the rows of prover and verifier",
  "values in an arbitrary commutative ring (instances: Goldilocks and its quadratic extension): each operation is a homomorphism on values, by induction on coefficients; the merge preserves the sum of terms whatever the order; programs by induction on the calls; sizes by a bound computed from the program"
 ],
 "C85": [
  "tables as numbers with a length and a count of polynomials per oracle; the stable sort of the polynomials, the index computation pass by pass, the merging of the tables' FRI instances with running starts, the openings as lists, the verifier's concatenation, quotient check over chunks and missing shape check; polynomials, values and constraints abstract, FRI ideal (it compares values with true evaluations)",
  "stable sorting by length equals grouping by degree; the order of the groups is the order `before`, so running sums are the specified offsets; both sides of the FRI equation split into the tables' parts when shapes are right"
 ],
 "C86": [
  "reversed ranges in steps of three, windows of two, flat_map and differences, with natural subtraction guarded where usize would underflow",
  "segments between consecutive degrees chain with steps of at most three, by induction on the list"
 ],
 "C87": [
  "columns as polynomials over any field with a primitive n-th root of unity, constraints as polynomial expressions of two rows with the kind of starky's consumer, the verifier's arithmetic on openings as it is (z_last, l_0, l_last, accumulation with alpha, reduce_with_powers of the chunks), openings true (what ideal FRI gives, C85); the prover's quotient as exact division (its computation on a coset is C88)",
  "MathComp polynomials: the check is a root of V - Z_H T; sizes by induction; at a row the accumulated value is a polynomial in alpha whose coefficients are the constraints; a nonzero polynomial has fewer roots than its size; divisibility by the product of X - g^i for completeness"
 ],
 "C88": [
  "compute_quotient_polys point by point (P::WIDTH = 1): quotient_degree_bits, step, next_step, indices into the low-degree extension, selectors, ZeroPolyOnCoset, the consumer; plonky2's ifft and coset_ifft by their sums; trim_to_len as a panic; the chunks",
  "the discrete Fourier sums are inverted by the geometric series; every value on the coset is the exact quotient's (C87), so the transform returns it, and its size fits the chunks"
 ],
 "C89": [
  "verify_quotient_polynomials for all challenges with slice::chunks; the circuit with squaring, mul_sub, division by a witnessed inverse, the recursive constraint consumer and ReducingFactorTarget",
  "division's constraint forces the inverse; the other gates compute what the verifier computes"
 ],
 "C90": [
  "plonky2's duplex challenger over any permutation; the sequences of absorbed messages and drawn challenges of the batch prover and verifier, with fri_challenges; the reduction of published rows (LogupModel)",
  "a drawn challenge leaves the input buffer empty, so compacting before an observation changes nothing; counterexamples: a list in another order; a row changed by the coefficients of the polynomial that vanishes at both challenges"
 ]
}