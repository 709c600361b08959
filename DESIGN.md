# Formal model of 0xmozak/mozak-vm in Rocq (Coq 8.16.1)

## 1. Method
* The model consists of total, computable Gallina functions (and, for the constraint systems, predicates on tables) over
  `Z`, `list`, `option`, records and std++ `gmap`.
* `u8/u32/u64/usize` values are `Z`; every wrap-around is written explicitly (`mod 2^32`), and every checked conversion,
  panic or `Err` is an explicit constructor of the result type.
* Overflow of plain `+`/`-`/`<<`/`>>` on integers is modelled as in a build with overflow checks (a panic). Where a
  release build behaves differently in a way a property depends on, the wrapping behaviour is modelled as well (C40, C50).
* Field elements (Goldilocks, p = 2^64 - 2^32 + 1) are canonical integers in [0,p); a constraint holds when its polynomial
  is 0 modulo p.
* STARK tables: a table is *accepted* when every row satisfies the always-constraints, every pair of consecutive rows the
  transition constraints, the first/last row the boundary constraints, and the cross-table lookups (CTLs) balance as
  multisets in the field (the meaning the CTL argument gives up to its soundness error). Soundness of starky/FRI and of
  plonky2's recursive verifier is *assumed*: "accepted proof" is read as "an accepted table exists".
* Hash functions (Poseidon2 permutation, leaf hash, two-to-one compression), utf-8 decoding and user code are universally
  quantified variables. Theorems that need collision resistance say so by a hypothesis of the form "or a collision is
  exhibited" or by stating equality of hashed preimages; no axiom is used.
* File roles: `*Model.v` definitions only, each citing the lines of /repo; `*Spec.v` independent specifications;
  `*Proofs.v`, `Cpu*.v` lemmas; `*Props.v` the property theorems, closed by `exact`, with concrete `Example`s meeting their
  hypotheses and `Print Assumptions` for each.

## 2. Trusted base
* The Coq 8.16.1 kernel including its `vm_compute` machine (used for evaluating concrete examples and finite case
  analyses such as enumerations of opcodes).
* `Print Assumptions` for every property theorem: **Closed under the global context** (no axioms at all). std++ loads Coq's
  own ssreflect, whose `Coq.ssr.ssrunder.Under_rel` module type has seven parameters (`Under_rel`, `Under_relE`,
  `under_rel_done`, ...); a checker that lists everything loaded reports them as library axioms. No theorem here uses them.
  The Quot* and Coset* files (C87, C88, C89) use MathComp's polynomials; MathComp seals some definitions in modules (`BigOp.bigop`, `SubsetDef.subset`,
  ...), which `coqchk` lists although they are definitions with bodies: `Print Assumptions` of the C87, C88 and C89 theorems is empty.
* The reading of the Rust source: each definition cites the file and lines it models; simplifications are stated there and
  summarised below.
* External crates are not modelled: plonky2/starky (proof systems), rkyv serialisation, the `elf` container parser,
  itertools, std collections (their documented meaning is used).

## 3. What is modelled and what is not
| part of /repo | modelled in | not modelled |
|---|---|---|
| runner: instruction.rs, decode.rs, vm.rs, state.rs, ecall.rs, poseidon2.rs, reg_abi | RunnerModel | log/trace output, `im` sharing, StorageDevice details beyond the data read |
| runner: elf.rs, code.rs, state.rs constructors | LoadModel | the `elf` crate's parsing, `MozakRunTimeArguments` serialisation |
| circuits: expr/stark evaluation, cross_table_lookup balance | Field, Stark | challenger, FRI, batching, recursive circuit builders of the tables |
| circuits/cpu: columns, all constraint files, generation.rs, lookups | CpuModel | — |
| circuits: ops/add, ops/blt_taken, xor, bitshift, rangecheck, rangecheck_u8 | TablesModel | — |
| circuits: cpu_skeleton, memory, memory_{half,full}word, memoryinit, zeroinit, register/*, program, program_multiplicities | StateModel, MemGenModel, RegGenModel | - |
| circuits: generation.rs, the list of cross-table lookups in stark/mozak_stark.rs, generation of range-check and program tables | ProofGenModel, ProofGenSpec | timing output, debug assertions |
| circuits: what stark/verifier.rs checks of a whole proof (public inputs, fixed tables), from the verifier's side | SoundSpec (`proof_accepted`, `describes`) | FRI and the STARK argument itself |
| circuits: storage_device, tape_commitments, public_sub_table (as a lookup) | DeviceModel | - |
| circuits: compression of lookups and public sub tables to sums of fractions (cross_table_lookup.rs, permutation.rs, public_sub_table.rs) | LogupModel | the transcript that draws the challenges |
| circuits: the list of all lookups and public sub tables (stark/mozak_stark.rs:454-477) at a challenge | LogupSystem | - |
| expr crate (lib.rs, ops.rs), circuits/src/expr.rs | ExprModel | gates of plonky2 and consumers of starky by their formulas; to_typed_starkframe, locations of constraints |
| circuits/src/linear_combination.rs, linear_combination_typed.rs, columns_view.rs, compose_ctl_with_challenge | ColumnModel | views as lists; indices past the width of a view (impossible by type) |
| circuits/src/stark/batch_prover.rs, batch_verifier.rs, proof.rs (openings), verifier.rs (quotients, shapes), CtlCheckVars::from_proofs | BatchModel | plonky2's batch FRI and Merkle trees (ideal: true evaluations of the committed polynomials); the transcript; the arithmetic of constraints |
| circuits/src/stark/verifier.rs (verify_quotient_polynomials, eval_l_0_and_l_last), starky's ConstraintConsumer | QuotModel | FRI |
| circuits/src/stark/poly.rs (compute_quotient_polys), the chunks in batch_prover.rs/prover.rs | CosetModel | packing of points; the fast algorithm of the transforms (their sums are used) |
| the transcripts of batch_prover.rs, batch_verifier.rs, prove_single_table, StarkProof::get_challenges; plonky2's Challenger, RecursiveChallenger and fri_challenges | TransModel, TransRec | the proof-of-work check |
| circuits/src/stark/recursive_verifier.rs (verify_quotient_polynomials_circuit, eval_l_0_and_l_last_circuit), the challenges' loop in verifier.rs | QuotCircuit | the circuits of the constraints (taken by their values) |
| circuits: poseidon2, poseidon2_sponge, poseidon2_output_bytes | PoseidonModel | the plonky2 round constants and matrices' values (parameters of every theorem), field arithmetic inside plonky2 |
| sdk: core (alloc, ecall ids), common (merkle, types), native and mozakvm tapes, poseidon padding; cli tape assembly | SdkModel | rkyv archives, process environment, example programs |
| recproofs: all non-test circuits (build_event_root, merge, verify_program, verify_tx, accumulate_delta, match_delta, state_update, verify_block) and their subcircuits, as the relation each constraint system defines; acceptance of recursive proofs as a least relation | RecModel | plonky2 itself (a proof is accepted iff the constraint system is satisfiable), witness setters, test circuits; the hash is an arbitrary relation (collision-free where stated) |
| node: block_proposer.rs, transactions.rs (event trees, cast trees) | NodeTreeModel | proving; HashMap of ongoing transactions (one entry), errors abandon the sequence |
| node: block_proposer/matches.rs | NodeMatchModel | proving; object deltas carried by the same proofs are in RecModel |
| node: block_proposer/state.rs | NodeModel | plonky2 proving (a proof is its public inputs; prove fails iff the witness the prover computes violates the circuit) |

## 4. Properties: what is modelled, how it is proved, result

| id | property | modelled | proof | result |
|---|---|---|---|---|
| C01 | Decoding is total and accepts exactly the supported encodings | decode_instruction, bit fields, immediates | case split over opcode/funct fields against an independent list of encodings (RvSpec) | proved |
| C02 | Decoder inverts the RISC-V encoder | same | arithmetic encoder in RvSpec; field-extraction lemmas on div/mod | proved |
| C03 | One VM step implements the RV32IM instruction | execute_instruction and every helper | independent integer ISA semantics (RvSpec.rv_exec); one lemma per instruction | proved |
| C04 | x0 is always zero | step, set_register_value | invariant over steps | proved |
| C05 | Read-only memory never changes | store, step, run | invariant over steps; a store to read-only memory is an error | proved |
| C06 | Stores are little-endian, exact and local | store, memory_load | finite-map reasoning and byte decomposition | proved |
| C07 | Multiply and divide meet the M-extension for all operands | mulh .. remu | integer arithmetic against div/quot/rem of Z | proved |
| C08 | Execution records are faithful and contiguous | step, Row / Aux, run | induction over the run | proved |
| C09 | HALT stops in place | ecall_halt, step | direct, and induction over the run | proved |
| C10 | Tape reads stream each tape in order | ecall_read, read_bytes | induction over the call sequence | proved |
| C11 | Tape reads write exactly the delivered bytes | ecall_read | finite-map reasoning | proved |
| C12 | Unknown environment calls are no-ops | ecall | direct | proved |
| C13 | The Poseidon2 call hashes memory and writes 32 bytes | ecall_poseidon2, hash_n_to_m_no_pad | the permutation is a universally quantified variable; induction over chunks | proved |
| C14 | Loaded program image matches the ELF segments | extract_elf_data, Code::from, State::new | list folds; the ELF container parser is the external `elf` crate, its segment table is the input | proved |
| C15 | Writing over code does not change execution | current_instruction, store | invariant over steps | proved |
| C20 | ADD table is sound and complete | ADD table constraints and generate | lifting of field equations over range-checked columns to Z | proved: soundness assumes what the range-check lookup of the row gives (see C34); from clock 2^32 on ADD generation panics (part of C20_add_complete) |
| C21 | CPU constraints force SUB, SLT(U), AND, OR, XOR | cpu/sub, signed_comparison, bitwise | same; refutation by an explicit accepted table | partial: SUB/AND/OR/XOR proved in full; SLT(U) needs abs_diff to be range checked, which it is not: C21_slt_refuted exhibits an accepted table |
| C22 | CPU constraints force the multiplication results | cpu/mul | same | proved |
| C23 | CPU constraints force the division and right-shift results | cpu/div, cpu/shift | same; refutations by explicit rows | partial: needs quotient_sign to be a bit on rows with skip_check_quotient_sign = 1; refuted otherwise (DIVU, REMU, SRL) |
| C24 | CPU constraints force the next pc | cpu/stark, branches, jalr, ecall | same, over consecutive rows | partial: branches proved; straight-line/jumps hold on all rows but the last (transition constraints); refuted: last row, JALR target range, ECALL next pc |
| C25 | An honest CPU trace row satisfies all CPU constraints | cpu/generation: every generate_*_row | for every machine step, evaluation of all constraints on the generated row | partial: proved for every provable step; refuted for -31/-1, odd JALR target, pc wrap |
| C26 | At most one operation is selected per row | binary selectors, one_hot | sum of bits in the field | proved |
| C27 | XOR table is sound and complete | xor table and generation | bit decomposition | proved |
| C28 | Bitshift table contains exactly the powers of two | bitshift table and generation | induction over the trace with transition constraints | proved |
| C29 | CPU skeleton counts the clock and halts once | cpu_skeleton table and generation | induction over the trace; completeness for every run of the machine model | proved: sound and complete for every run from a freshly loaded program |
| C30 | Register table reads return the last write | register tables | induction over a sorted trace, refinement to `last write` | partial: proved when each register is initialised before its accesses (generated tables do so, C78); refuted otherwise (first row may be a read; a second init row is allowed) |
| C31 | Memory table loads return the last store | memory table, memory init tables | same | proved: initialisation clocks 0/1 and access clocks below 2^40 are what the lookups of the init and skeleton tables give |
| C32 | Program-ROM packing is injective on instructions | program ROM packing, InnerCpu / ProgramCpu lookups | positional-number injectivity; CTL multiset argument | partial: injective up to LB/LBU and LH/LHU (refuted there: is_dst_signed is not packed); every running row fetches the ROM word at its pc, but the row's columns are not range checked, so any ROM word can be executed as HALT (C32_halt_refuted) |
| C33 | Half- and full-word memory tables split words into bytes | half/fullword tables + lookups | byte splitting; completeness of generation from executions | proved: sound within the memory system of lookups; generated rows from any execution satisfy constraints and both CPU lookups |
| C34 | Range-check table admits exactly 32-bit values | rangecheck, rangecheck_u8 and their lookups | multiset balance implies membership | partial: proved when multiplicities are non-negative with totals below p; refuted in general (multiplicity -1 rows) |
| C35 | BLT-taken table only takes branches whose condition holds | blt_taken table and lookups | explicit accepted system | partial: the range check of the table is never registered and it has no constraints |
| C36 | CPU constraints force load and store operands | cpu/memory, load/store lookups | field lifting; explicit memory systems for the refutations | partial: address proved in full; LW/SW values unconstrained, LB/LH sign bit free, SB/SH truncation not looked up: refuted within complete memory systems |
| C40 | merkleize computes the address-prefix tree | merkleize | well-founded induction on the shift; termination measure | partial: proved for every sorted list unless all leaves sit at exactly two addresses differing in the top bit; there the code panics (overflow checks) or loops for ever (C40_top_bit_refuted) |
| C41 | Event commitment is computed over address-sorted events | event tape canonical hash | sortedness and permutation invariance | partial: refuted: the leaves are in byte order of the little-endian address, not in u64 order, and the root is not the address-prefix root; proved: canonical order, independence of emission order |
| C42 | Canonical/temporal hints are mutually inverse permutations | canonical order hints | permutation algebra | proved |
| C43 | The VM event tape accepts exactly the recorded events | mozakvm event tape | induction over the emitted sequence | proved |
| C44 | The call tape replays exactly the recorded calls | mozakvm call tape | induction over the message list | partial: messages addressed to the program are consumed once, in order; refuted: messages claiming the program as caller may be skipped; a nested call followed by another send is not replayable |
| C45 | Native call nesting keeps caller identity | native call tape, identity stack | induction over nested call trees | proved |
| C46 | Hash padding is injective | poseidon padding | list cancellation | proved |
| C47 | Digest words and bytes convert losslessly | Poseidon2Hash conversions | little-endian byte decomposition | proved |
| C48 | The accepted event commitment is fixed by the emitted events | mozakvm event tape + merkleize | uniqueness of the sorted permutation | partial: proved for canonically ordered tapes; refuted in general: the VM does not check the order of the tape |
| C49 | Reading an input tape returns its next bytes | mozakvm input tape + ECALL buffer | state invariant over reads and seeks | partial: in-range reads and seeks over fetched bytes proved; short reads and reads after a forward seek panic (refuted) |
| C50 | The guest allocator returns disjoint aligned blocks | guest bump allocator | invariant over the allocation history | partial: proved with overflow checks; refuted without (the guest's release profile): the heap pointer wraps |
| C51 | Tapes assembled from a native run are accepted in the VM | cli tape assembly | composition of C42, C43, C48 | partial: whenever tapes are assembled they are accepted; they are not assembled in the C40 refutation case |
| C52 | Recursive aggregation of unbounded depth | the unbounded-recursion subcircuits as a least relation `acc` over verifier data and statements | induction on acceptance gives the tree; tree induction gives completeness; explicit forged proof for the refutation | partial: Soundness holds for proofs that name their own circuit (_partial) and completeness for all trees (_complete); nothing in the code checks the named verifier, so arbitrary statements are accepted (_refuted). |
| C53 | Event roots commit to the same events in both hash formats | build_event_root leaf and branch circuits, `hash_event`, `byte_wise_hash`, forward-or-hash | tree extraction (C52) and induction; injectivity of preimage layouts; the forged address is an explicit witness | partial: Genuine proofs: sound, determined, complete. Byte decompositions are not forced to be canonical, so the VM address a+P passes as a (_refuted). |
| C54 | Merging event lists loses and reorders nothing | merge leaf/branch circuits and the embedding subcircuit | induction on the tree, uniqueness of roots from collision-freeness | proved: Soundness and completeness for genuine proofs, over collision-free hash histories. |
| C55 | Transactions consist of agreeing programs | verify_program, verify_tx leaf and branch circuits | tree extraction, agreement by induction, events by C53/C54 | partial: All but program identity proved; the program proof's verifier data is not tied to the program id (_refuted). |
| C56 | Accumulated events describe exactly the events | accumulate_delta leaf and branch circuits, field arithmetic of flags and deltas | induction on the tree with the description as invariant | proved: Soundness and completeness. |
| C57 | Object changes are explained by events | match_delta leaf and branch circuits | C56 plus case analysis of the leaf constraints | proved: Soundness and completeness; the rules are transition_ok / legal_transition in RecSpec. |
| C58 | State updates change only the summarised leaves | state_update leaf and branch circuits, addresses and summaries | induction on height | proved: Soundness and completeness for every height (addresses modulo the field size). |
| C59 | A block proof proves the whole chain | verify_block circuit: base, height, state | induction on acceptance with C60 as the step | partial: Proved for genuine proofs; refuted without the verifier check. |
| C60 | Only events of transactions change the state | verify_block circuit step | C55, C57, C58 combined by root uniqueness | proved: Both halves proved for genuine blocks. |
| C61 | Only the owner changes an object | match_delta and accumulate_delta leaf constraints | projection of C57; explicit counterexample proofs | partial: What does hold is proved; the owner rule for writes, the ensure rule and the credit floor are each refuted by an accepted proof. |
| C62 | The block proposer's state is a map in blocks | node State: sparse tree, leaf kinds, apply_operation, finalize, get_state, with the proofs attached to nodes | refinement: relation between the tree and a map of cells, preserved by every operation; induction on the history | partial: Proved for all histories at addresses below P-1 (_partial); at address P-1 every operation panics (C62_address_refuted). |
| C63 | The state proof states exactly what the block did | the proofs attached to the tree's nodes, with the provers' own witness computation (leaf_prove, branch_prove) | invariant: a node's proof is the statement its cells demand; explicit history for the stale-proof bug | partial: Proved for histories in which no ended block leaves a touched address empty (_partial); after a block that deletes an object beside an untouched one the cached proof is stale (_refuted, up to a hash collision). |
| C64 | Rows record what their step did | aux values of every step function | case split over instructions; frame lemmas for memory and registers | proved: Holds for every step of every instruction from every well-formed state, and hence for every row of a record. |
| C65 | Lists are combined in a balanced tree, the cast root is the SDK's | reduce_tree with its stack; merkleize from SdkModel | stack invariant: powers of two, decreasing; numbered leaves form a trie; uniqueness of prefix roots | proved: Proved for every length, merge and hash. |
| C66 | The node's event tree is the tree the SDK commits to | reduce_tree_by_address, event trees | naturality in keys and values; groups as runs; induction on height; the SDK's steps keep the node's value | proved: Proved for every list; the shape claim for ordered lists only. CanonicalEvent order in the SDK compares little-endian address bytes, so lists from the SDK need not be ordered numerically: node and SDK then agree on a tree that is not an address trie. |
| C67 | Partial addresses compare and join as ranges | BranchAddress and its operations, shifts by 64 or more as panics | bit arithmetic; each relation as an inequality of ranges | partial: Heights differ by less than 64 and addresses joined lie in the same half. Refuted otherwise: leaves in different halves of the address space have no common ancestor (panic), and the event tree of a program touching both halves cannot be compared with any leaf (C67_compare_refuted). |
| C68 | Programs of a transaction may arrive in any order | OngoingTxNode, insert_program, AddressPath | state as a function of the set of ingested programs; invariant that a leaf stays blocked | partial: Proved for the cast sizes in which every right subtree fits the path bits (1, 3, 5, 7, 9, 13, 15, ...). Refuted for all others: the path has the bits of the length, not of length - 1, so after program 0 the cast is never completed; for 4, 8, 16, ... in any order. A program accepted once is refused from then on (C68_duplicate). |
| C69 | Merging event trees gives the tree of all events | merge_events with its nine comparison cases and the merge proofs' public inputs | induction on fuel over tries labelled with partial addresses; the merge of sorted lists splits where the tries split | partial: Proved for at most one event per address and program, addresses below 2^63; order independence for pairwise distinct addresses. Refuted beyond: two events of one program at one address (or two programs' events there) meeting another event at the same or the neighbouring address panic the node (unreachable!). |
| C70 | The match proof and the transaction proof state the same event root | Matches: ongoing and ready accumulators, finalize through reduce_tree_by_address | uniqueness of the address trie; at most three events per address combine as a left comb; invariant over histories with distinct addresses | partial: Proved for one transaction with at most three events per address in any batches, and for any interleaving of transactions touching distinct addresses. Refuted: four events of one program at one address (balanced tree against left comb) and two programs ingested in the reverse of cast order give different roots, so the block cannot be proved. |
| C71 | Tape reads of every execution can be proved | storage_device rows, constraints, lookups and trace generation; CPU lookup | consecutive-rows lemma over blocks of a read; multiplicities summed read by read | partial: Proved with the exact condition: a table satisfies its constraints iff no empty read of the tape is directly followed by a non-empty one (cyclically when the table is full). Refuted without it: such programs run but cannot be proved. |
| C72 | An accepted proof writes exactly the bytes of the tape reads | the seven tables linked to the CPU and memory tables | call rows by lookup membership both ways; induction along the rows of a read under the missing chaining constraints; concrete accepted tables refute the claim without them | partial: Call rows and CPU reads correspond (C72_calls). The writes are only guaranteed under the chaining conditions the constraints omit; without them an accepted proof may write arbitrary bytes with no environment call, or execute a read that writes nothing. |
| C73 | Published tape commitments are the ones the program read | tape commitment table, generation, public sub-tables as lookups against the published values | counting lookups; Permutation from equal multiplicities | partial: Proved: published bytes are the marked rows up to order, read bytes are published, generated tables are accepted iff every read asks for all 32 bytes. Refuted: partial reads cannot be proved; the order of the published bytes is not enforced. |
| C74 | Hash calls of every execution can be proved | the sponge, permutation and output-byte tables: rows, constraints, lookups, trace generation, padding | induction over the blocks of a message; lookup multiplicities summed call by call; round functions equal the constraint maps up to the field | partial: Proved for every execution with the exact condition on generation: a message ending at address 2^32 makes generation overflow (panic in a checked build). The digest address is added without wrapping: a digest wrapping around 2^32 runs but cannot be proved. The plonky2 round constants are parameters. |
| C75 | An accepted proof stores the digest of the message, where the call says | the three tables linked to the CPU, memory and register lookups | induction backwards from a digest row to its start row under the missing chaining constraints; concrete accepted tables refute each claim without them | partial: Proved: calls and message starts correspond at each clock (C75_calls); under the chaining conditions the constraints omit, loads, digest and store address are right and nothing else is stored or loaded. Refuted without them: digest stored with no call, call without digest, digest stored elsewhere, non-canonical digest bytes, and (for every constant set) the zero digest for a chosen message. |
| C76 | The permutation table computes the Poseidon2 permutation | round constraints with S-box helper columns | induction over the rounds; a forged last cube refutes the claim for every constant set | partial: Generated rows are accepted and right; an accepted row with honest cubes is right (C76_output_partial). The cube columns are not constrained, so an accepted table may map any state to zero (C76_output_refuted, for every constant set). |
| C77 | Memory of every execution can be proved | memory table generation with its sort and padding, both initial-memory tables, and every table contributing accesses | an abstract history of byte values; the sorted list of a history satisfies the constraints; the executor's effect on memory gives such a history; lookup multiplicities summed table by table | partial: Proved for programs whose read-only and writable memory are disjoint and whose hashed messages and digests end below 2^32. C77_overlap_refuted: with an address in both (which the loader documents as allowed) generation gives it two initial rows and the table cannot be proved. The number of rows is assumed within the field's two-adic limit. |
| C78 | Registers of every execution can be proved | generation of the ADD, BLTU, initial-register and three register tables with extraction, sort, split and padding | an abstract history of register values; the sorted rows of a history satisfy the constraints; the executor's effect on registers gives such a history; multiplicities over the six looking tables | partial: Proved for programs whose branches, stores and ECALL name x0 as destination, which holds of everything the loader produces (C78_loaded), and whose hashed messages do not end at 2^32 exactly (C74: those panic). The number of rows is assumed within the field's two-adic limit. |
| C79 | Every execution can be proved | generation of the range-check, u8 range-check, program and program-multiplicity tables, and generate_traces as a whole; the constraints of all tables and the list of lookups as two records | the completeness theorems of each table (C20, C25, C27-C29, C33, C71, C73, C74, C77, C78), grouping lemmas for the range-check tables, and multiplicity sums over the CPU, ADD and BLTU tables for skeleton and program | partial: Proved under the conditions found necessary by the refuted parts of C25 (-31 and -1, odd JALR targets, unknown environment calls), C71 (empty tape reads), C73 (32-byte commitment reads), C74 (messages ending at 2^32) and C77 (overlapping segments, wrapping digests); the soundness of STARKs themselves and the field's limit on the number of rows are outside the model. C79_compressed_partial adds that the verifier that compares lookups at random challenges accepts. |
| C80 | A proof shows an execution | acceptance of a whole set of tables by a verifier (the records of C79 plus the program's ROM, initial memory and register tables and the public values); the executions of the VM model | a concrete set of accepted tables of a program that never halts; and a simulation argument from the skeleton, lookups and per-instruction soundness theorems (C20-C24, C29-C33, C36) under named closings of the known gaps | partial: Refuted as stated (finding 35: signed loads). Proved, for tables with no environment calls except HALT and with the gaps of findings 2, 4-12, 36 and 37 closed by hypothesis (record gaps_closed): the VM halts on that program with any tapes and the tables describe its run step by step, including every byte loaded from and stored to memory. Missing: the other environment calls (input tapes, Poseidon2). C80_challenges_partial states it for the verifier that compares lookups at random challenges: tables that describe no run are accepted for a vanishing fraction of the challenges. |
| C81 | Compressed lookups decide the balance of tables | the compression, the running sums, the constraints on them, the final sums, the reduced values of public sub tables, and the order in which openings are written and read; balance is the explicit check check_single_ctl | the constraints force the last value to be the sum of multiplicity over compressed tuple; grouping rows by tuple and clearing denominators gives a polynomial in gamma with fewer roots than rows, non-zero when beta separates one tuple with a non-zero balance from the others (a root count in beta); counting of pairs and of lists of challenges | proved: Proved for every lookup and public sub table whose sides have the same number of columns; C81_equal_widths_needed shows that this cannot be dropped and C81_zero_denominator_accepts that some challenges do deceive. Not modelled: the transcript from which the challenges are drawn, and the polynomial commitment that reduces the constraints on the trace domain to a random point. |
| C82 | A verifier with random challenges | the eighteen lookups as lists of looking and looked tables in the order of the code, the public sub tables, and the verifier's comparison at one challenge on top of C81; the number of columns of each lookup | each lookup is shown to be the explicit balance of C79/C80 after concatenation; the first lookup that does not balance gives the bound by C81, uniformly in the number of columns (at most 24) | proved: Proved for all tables whose array-valued cells have the code's number of elements. C79_compressed_partial and C80_challenges_partial restate C79 and C80 for this verifier. Not modelled: the transcript from which the challenges are drawn, and the polynomial commitment that reduces the constraints on the trace domain to a random point. |
| C83 | Constraint expressions mean the same everywhere | expressions as nodes of an arena with references, the folding of integer constants in i64, the operators, the evaluator trait with its pure, circuit, counting and cached instances (state threaded explicitly, the two cache maps), build_packed and build_ext; plonky2's circuit as a list of gates and starky's constraint consumers as their defining formulas | a value is assigned to each arena node by induction on the calls; one refinement lemma, for any evaluator whose operations preserve a relation between results and values that is stable under later states, covers the plain and the cached recursion; instances: equality for the pure evaluator, 'equal in every satisfying assignment of the circuit so far' for circuits; the count is bounded by the size of the value cache | proved: Proved. plonky2's gates and starky's consumers are outside the repository and modelled by their defining formulas; locations of constraints (for debugging) are not modelled. C83_constants_overflow shows why the range of i64 is a condition. |
| C84 | Linear combinations of columns mean what is written | typed columns as dense vectors of integers with checked arithmetic, sparse columns as lists of (index, coefficient) with the stable sort and the merge join of itertools, the translation, evaluation on rows, on column-major traces and in circuits (plonky2's inner_product_extension as gates), compose_ctl_with_challenge, the rows of prover and verifier | values in an arbitrary commutative ring (instances: Goldilocks and its quadratic extension): each operation is a homomorphism on values, by induction on coefficients; the merge preserves the sum of terms whatever the order; programs by induction on the calls; sizes by a bound computed from the program | proved: Proved. The tables' actual lookups are modelled where the tables are (evaluated rows); packed fields are a ring like any other. |
| C85 | A batched proof opens every table's own polynomials and checks its constraints | tables as numbers with a length and a count of polynomials per oracle; the stable sort of the polynomials, the index computation pass by pass, the merging of the tables' FRI instances with running starts, the openings as lists, the verifier's concatenation, quotient check over chunks and missing shape check; polynomials, values and constraints abstract, FRI ideal (it compares values with true evaluations) | stable sorting by length equals grouping by degree; the order of the groups is the order `before`, so running sums are the specified offsets; both sides of the FRI equation split into the tables' parts when shapes are right | partial: Layout and completeness proved; soundness under the hypothesis that the openings have the shape the constraint system prescribes, which the verifier checks only for the separately proved tables: without it, C85_refuted accepts any committed polynomials whose lookups are satisfied, whatever the constraints (finding 42). |
| C86 | The rounds of a batched proof's FRI visit every table's degree | reversed ranges in steps of three, windows of two, flat_map and differences, with natural subtraction guarded where usize would underflow | segments between consecutive degrees chain with steps of at most three, by induction on the list | proved: Proved. |
| C87 | Checking quotients at one random point checks every constraint on every row | columns as polynomials over any field with a primitive n-th root of unity, constraints as polynomial expressions of two rows with the kind of starky's consumer, the verifier's arithmetic on openings as it is (z_last, l_0, l_last, accumulation with alpha, reduce_with_powers of the chunks), openings true (what ideal FRI gives, C85); the prover's quotient as exact division (its computation on a coset is C88) | MathComp polynomials: the check is a root of V - Z_H T; sizes by induction; at a row the accumulated value is a polynomial in alpha whose coefficients are the constraints; a nonzero polynomial has fewer roots than its size; divisibility by the product of X - g^i for completeness | proved: Proved, over any field (the extension field of the code is an instance). FRI itself is not modelled; the prover's computation of quotients is C88. |
| C88 | The quotients the prover computes on a coset are accepted | compute_quotient_polys point by point (P::WIDTH = 1): quotient_degree_bits, step, next_step, indices into the low-degree extension, selectors, ZeroPolyOnCoset, the consumer; plonky2's ifft and coset_ifft by their sums; trim_to_len as a panic; the chunks | the discrete Fourier sums are inverted by the geometric series; every value on the coset is the exact quotient's (C87), so the transform returns it, and its size fits the chunks | proved: Proved. Packed arithmetic is modelled one point at a time. |
| C89 | A table's recursive verifier checks the quotients exactly as the verifier does | verify_quotient_polynomials for all challenges with slice::chunks; the circuit with squaring, mul_sub, division by a witnessed inverse, the recursive constraint consumer and ReducingFactorTarget | division's constraint forces the inverse; the other gates compute what the verifier computes | proved: Proved. The circuits of the constraints themselves are taken by their values (ExprModel, C83). |
| C90 | Prover and verifier draw the same challenges, after everything they must not depend on | plonky2's duplex challenger over any permutation; the sequences of absorbed messages and drawn challenges of the batch prover and verifier, with fri_challenges; the reduction of published rows (LogupModel) | a drawn challenge leaves the input buffer empty, so compacting before an observation changes nothing; counterexamples: a list in another order; a row changed by the coefficients of the polynomial that vanishes at both challenges | partial: Same challenges proved for public tables listed in table order (C90_same_partial; PUBLIC_TABLE_KINDS is); refuted for other orders. The recursive challenger is proved equal (C90_recursive). That the statement is fixed first is refuted: published rows enter no transcript (finding 43). |

## 5. Findings
Every finding has a `_refuted` theorem (or is part of the statement of the theorem named).
1. `generate_div_row` writes `-2 ^ 31`, which in Rust is XOR: honest `-31 / -1` (and friends) cannot be proved (C25).
2. `is_dst_signed` is not part of the ROM packing: LB/LBU and LH/LHU are interchangeable (C32).
3. ECALL rows leave the next pc unconstrained (C24).
4. SLT/SLTU: `abs_diff` is not range checked, either result is accepted (C21).
5. SB/SH truncation uses the XOR columns without looking them up (C36).
6. DIV/REM/SRL: `quotient_sign` is not forced to be a bit when the check is skipped (C23).
7. ROM packing is a non-injective linear combination of unchecked columns: any instruction can be executed as HALT (C32).
8. JALR does not clear bit 0 and its target is not range checked; transition constraints skip the last row (C24).
9. Register table: re-initialisation is possible mid-run, and the first row may be a read (C30).
10. Range check: rows with multiplicity -1 forge membership (C34).
11. The range check of the BLT-taken table is never registered (C35).
12. LW/SW register values are not linked to the fullword table (C36).
13. `merkleize` panics / loops for exactly two addresses differing in bit 63 (C40).
14. The event commitment sorts by little-endian byte order, not by address (C41); the VM does not check the order (C48).
15. The VM call tape skips messages claiming the program itself as caller (C44); nested calls followed by a send are not
    replayable (C44).
16. Short input-tape reads and reads after forward seeks panic (C49); the guest allocator wraps in release builds (C50).
17. Recursive proofs: the verifier named in the public inputs of the recursion circuits is checked by nobody, so with
    any permissive circuit every statement can be proved (C52), including false chains of blocks (C59).
18. The verifier data of program proofs is not tied to the program id (C55).
19. Byte decompositions of field elements are not canonical: address `a + P` passes as `a` (C53).
20. Writes do not require ownership, ensure events are not enforced when nothing is written, anybody can move credits
    and credits can underflow (C61); blocks without events cannot be proved (C60).
21. Block proposer state: operations at address 2^64 - 2^32 (the field element -1) panic (C62); `finalize` keeps the
    proof of a branch whose deleted leaf was pruned next to an unused one, so the next block's proof is stale (C63).
22. Ingesting the programs of a transaction uses one path bit too many for most cast sizes: casts of 4, 8, 16, ... programs
    are never completed, casts of 2, 6, 10, ... only in some orders (C68).
23. `common_ancestor` and `compare` shift by 64: programs touching both halves of the address space crash the node (C67).
24. `merge_events` hits `unreachable!` (the node panics) when a program has two events at one address - or two programs one
    each - and another program of the block has an event there or at the neighbouring address (C69).
25. The transaction side and the match side of a block hash several events at one address in different shapes or orders, so
    blocks with four events of one program at an address, or with programs ingested out of cast order, cannot be proved (C70).
26. The SDK orders events by the little-endian bytes of the address, the node's trees assume numeric order: for such lists
    node and SDK agree on a tree that is not the address trie the match side builds (C66, C70).
27. The storage-device constraints do not chain the rows of a read: a detached store row is accepted (arbitrary writes to
    memory without an environment call), and a read may write nothing. One constraint tests the next row's helper column
    where its comment says the current row's (C72).
28. An empty tape read directly followed by a non-empty read of the same tape violates `lv.sd * nv.size * (nv.both - 1)`:
    the program runs but cannot be proved (C71).
29. The published event and cast-list commitments are bound as multisets of bytes: a proof for one is a proof for any
    rearrangement. A program reading fewer than 32 bytes of a commitment cannot be proved (C73).
30. The S-box helper columns of the Poseidon2 permutation table are not constrained to be cubes: for any constants and any
    state there is an accepted row whose output is zero, so digests can be forged outright (C75, C76).
31. The sponge constraints do not chain the blocks of a message: a permute row may follow a dummy row (a digest is stored to
    memory with no environment call), a non-final row may be followed by a dummy row (a call stores no digest) and the
    output address is not carried from row to row (the digest of a longer message may be stored anywhere) (C75).
32. The output-bytes table does not require canonical encodings: small field elements have two accepted encodings (C75).
33. A hashed message ending exactly at 2^32 makes trace generation overflow, and a digest address within 31 bytes of 2^32
    cannot be proved although the executor wraps it (C74).
34. A program with an address in both a read-only and a writable segment runs (documented: read-only wins) but gets two
    initial rows for it in the memory table, so it cannot be proved (C77).
35. Whole-proof forgery: the program `LB x5, 100(x0); BGE x5, x0, +12; ...` with a byte >= 128 at address 100 panics on every
    input, and yet a complete set of accepted tables for it exists, because LB and LBU have the same ROM row (C80).
36. The `is_running` columns of the ADD and BLTU tables are not constrained at all, not even to be bits: they are used as
    multiplicities of the skeleton, program, register and range-check lookups. Likewise the signedness columns of CPU rows
    that execute nothing are free, so such rows send arbitrary multiplicities to the range check (see finding 10). C80
    assumes these closed (`gc_running`, `gc_rc`).
37. The sign column of signed byte and half-word loads is not checked against the loaded value (C36_lb_sign_refuted): the
    range check meant to do it is on the value minus its own sign extension, which holds for either sign. C80 assumes it (`gc_lb`, `gc_lh`).
38. CrossTableLookup::new (circuits/src/cross_table_lookup.rs:267-281) documents a panic when the tables do not have equal
    numbers of columns, and checks nothing; tuples that differ only in trailing zeros are compressed to the same value, so
    such a lookup would identify them for every challenge (C81_equal_widths_needed). The lookups of the code are built from
    typed rows of equal width.
39. A row whose tuple is compressed to zero panics in the honest prover even when its filter is zero, and for the verifier
    leaves the auxiliary column free at that row (C81_zero_denominator_accepts): at most rows * p of the p^2 challenges.
40. The comment on GrandProductChallenge::combine (circuits/src/stark/permutation.rs:55-57) gives the first term the highest
    power of beta; reduce_with_powers gives it the lowest. The prover, the verifier and the circuits agree with each other.
41. Expr::bin_op and una_op (expr/src/lib.rs:92-110) compute on two integer constants in i64 although the expression stands for
    a field element: constants beyond the range panic with overflow checks and wrap silently without
    (C83_constants_overflow). No constraint of the circuits comes near the range.
42. batch_verify_proof does not check the shape of the openings of the batched tables (validate_proof_shape is only called from
    verify_stark_proof_with_challenges). If the openings of a table's quotients are moved to the end of `ctl_zs`, what FRI and the
    transcript see is unchanged, CtlCheckVars::from_proofs ignores the surplus, and the loop over the chunks of `quotient_polys` is
    empty: no constraint of any batched table is checked, and any trace with matching lookups is accepted (C85_refuted).
43. **Public values are not part of the transcript** (circuits/src/stark/proof.rs:400 and batch_verifier.rs:50, "TODO: Observe public
    values"; C90_public_values_refuted). The challenges that compress published rows are drawn from the trace caps alone, and the rows are
    only compared after compression. Whoever has a proof can compute other rows with the same compressed values, and the same proof is accepted
    with them: for rows of more columns than challenges by adding the coefficients of the polynomial that vanishes at both betas. The two sub
    tables of this commit have one column; there the forger solves for the elementary symmetric functions of three rows, two linear equations, until
    the polynomial splits (C90_one_column_refuted shows a solution found that way in four tries). The public input, the entry point, is not observed either.
44. **The order of the public tables matters** (circuits/src/stark/batch_verifier.rs:45, recursive_verifier.rs:336; C90_order_refuted). The prover
    absorbs the caps in the order of TableKind, the verifiers in the order of the slice they are given; for a slice in another order honest
    proofs are rejected. PUBLIC_TABLE_KINDS is in table order.

## 6. Testing the theorems
`tools/mutate.py` applies realistic bugs to a scratch copy of the model, rebuilds, and lists which theorems stop
being provable; results are in `seeded/LOG.jsonl`, including theorems tightened because a bug survived.
