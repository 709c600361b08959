{"id": "C01", "title": "Decoding is total and accepts exactly the supported encodings", "statement": "decode_instruction never panics; it returns Ok exactly for the words that are a well-formed RV32IM instruction (or one of FENCE / EBREAK / MRET / CSRRW / CSRRS / CSRRWI, treated as no-ops), and otherwise returns a DecodingError carrying the given pc and word.", "quantifier": "every pc and every 32-bit word", "why_tests_cant": "2^64 (pc, word) pairs; the fuzz test samples a few hundred and cannot show that no unsupported word is accepted", "anchors": ["runner/src/decode.rs: decode_instruction, extract_immediate, InstructionBits"]}
{"id": "C02", "title": "Decoder inverts the RISC-V encoder", "statement": "For every RV32IM instruction, encoding it as the ISA manual prescribes and decoding the word at any pc yields the internal instruction denoting the same operation on the same registers and immediate (immediates sign-extended, branch/jump/auipc targets made absolute modulo 2^32).", "quantifier": "every RV32IM instruction, every register triple, every in-range immediate, every pc", "why_tests_cant": "operand space is too large for the table-driven test cases", "anchors": ["runner/src/decode.rs: decode_instruction, extract_immediate"]}
{"id": "C03", "title": "One VM step implements the RV32IM instruction", "statement": "For every machine state and every RV32IM instruction located at the current pc, executing one VM step changes registers, pc and memory exactly as the ISA specification of that instruction says (including SLLI run as MUL, SRLI run as DIVU, LUI/AUIPC run as ADD, JAL run as JALR), and nothing else.", "quantifier": "every state, every instruction, all operand values", "why_tests_cant": "2^32 x 2^32 operand values per instruction and all memory contents", "anchors": ["runner/src/vm.rs: State::execute_instruction, mulh, mulhu, mulhsu, div, divu, rem, remu, lb, lh, lw, jalr, store", "runner/src/state.rs: register_op, memory_load, branch_op"]}
{"id": "C04", "title": "x0 is always zero", "statement": "In every state reachable from program load by any number of steps, reading register x0 gives 0.", "quantifier": "every program, every initial register assignment through the API, every number of steps", "why_tests_cant": "needs an invariant over unbounded executions", "anchors": ["runner/src/state.rs: set_register_value, get_register_value", "runner/src/vm.rs: step"]}
{"id": "C05", "title": "Read-only memory never changes", "statement": "In every execution, every byte of the program's read-only memory keeps its initial value; an instruction or environment call that would write such a byte aborts the run instead.", "quantifier": "every program, tape contents and number of steps", "why_tests_cant": "any instruction at any point could be the offending one", "anchors": ["runner/src/state.rs: store_u8, StateMemory::new", "runner/src/vm.rs: store", "runner/src/ecall.rs: ecall_read", "runner/src/poseidon2.rs: ecall_poseidon2"]}
{"id": "C06", "title": "Stores are little-endian, exact and local", "statement": "After SB/SH/SW at address a, a load of the same width at a returns the low 8/16/32 bits of the stored register, and every byte outside a..a+width-1 (mod 2^32) is unchanged; this includes misaligned addresses and accesses wrapping past 2^32-1.", "quantifier": "every state, address, width and value", "why_tests_cant": "address wrap-around and overlap cases are combinatorially many", "anchors": ["runner/src/vm.rs: store, lb, lbu, lh, lhu, lw", "runner/src/state.rs: memory_load, load_u8, store_u8"]}
{"id": "C07", "title": "Multiply and divide meet the M-extension for all operands", "statement": "MUL/MULH/MULHU/MULHSU return the low/high words of the exact 64-bit product; DIV/DIVU/REM/REMU satisfy dividend = divisor*quotient + remainder with |remainder| < |divisor| and remainder sign following the dividend, division by zero gives all-ones / the dividend, and MIN / -1 wraps to MIN with remainder 0; no operand makes them panic.", "quantifier": "all pairs of 32-bit operands", "why_tests_cant": "2^64 operand pairs", "anchors": ["runner/src/vm.rs: mulh, mulhu, mulhsu, div, divu, rem, remu"]}
{"id": "C08", "title": "Execution records are faithful and contiguous", "statement": "When a run succeeds, row i of the record holds the state just before step i; executing that row's state gives the state of row i+1 (or the last state); the clock of row i is initial clock + i; only the last state is halted; running again from the same start gives the same record.", "quantifier": "every program, initial state and run length", "why_tests_cant": "needs induction over the run", "anchors": ["runner/src/vm.rs: step, Row, ExecutionRecord"]}
{"id": "C09", "title": "HALT stops in place", "statement": "An ECALL with a0 = HALT sets the halted flag and leaves pc, registers, memory and tapes as they are; a run stops at the first such call and reports will_halt only there; no other instruction or environment call halts.", "quantifier": "every state and program", "why_tests_cant": "must hold at every step of every run", "anchors": ["runner/src/ecall.rs: ecall_halt, ecall", "runner/src/vm.rs: step"]}
{"id": "C10", "title": "Tape reads stream each tape in order", "statement": "Over any sequence of environment calls, the bytes delivered from the private/public/call/event tape are consecutive chunks whose concatenation is a prefix of that tape, a read returns min(requested, remaining) bytes, and reading one tape never moves another; commitment and program-id tapes are always read from the beginning.", "quantifier": "every interleaving of reads on all tapes, every request size", "why_tests_cant": "interleavings and short reads are unbounded", "anchors": ["runner/src/ecall.rs: ecall_read", "runner/src/state.rs: read_bytes, StorageDeviceTape"]}
{"id": "C11", "title": "Tape reads write exactly the delivered bytes", "statement": "A tape read stores the delivered bytes at buffer..buffer+n-1 (mod 2^32), leaves all other memory, all registers unchanged, advances pc by 4, and the recorded storage-device entry lists exactly those bytes.", "quantifier": "every state, buffer address and request size", "why_tests_cant": "addresses wrap and buffers overlap arbitrary memory", "anchors": ["runner/src/ecall.rs: ecall_read"]}
{"id": "C12", "title": "Unknown environment calls are no-ops", "statement": "An ECALL whose a0 is none of the defined call numbers changes only the program counter (by 4) and the clock.", "quantifier": "every state and every a0 > 10", "why_tests_cant": "2^32 - 11 numbers", "anchors": ["runner/src/ecall.rs: ecall"]}
{"id": "C13", "title": "The Poseidon2 call hashes memory and writes 32 bytes", "statement": "With a non-empty input whose length is a multiple of the rate (8) and that does not wrap around the address space, the call writes exactly the 32 digest bytes (a function of the input bytes only) at the output pointer, changes nothing else but pc, and its sponge record is the chain of permutation inputs/outputs, one per 8-byte block, with only the last one marked as producing output; it aborts on empty or non-multiple-of-8 input.", "quantifier": "every state, input pointer, length and output pointer (overlap allowed)", "why_tests_cant": "input and output ranges may overlap or be of any length", "anchors": ["runner/src/poseidon2.rs: hash_n_to_m_no_pad, ecall_poseidon2"]}
{"id": "C14", "title": "Loaded program image matches the ELF segments", "statement": "After loading, each memory byte equals the byte given by the last matching segment covering it (zero-filled past the file size), read-only wins over read-write, instructions are those decoded from executable segments only, and the start pc is the entry point; overlapping address space end is rejected.", "quantifier": "every list of program headers and file contents", "why_tests_cant": "arbitrary overlaps and sizes of segments", "anchors": ["runner/src/elf.rs: extract_elf_data, internal_load_elf, vanilla_load_elf", "runner/src/code.rs: From<&HashMap<u32,u8>> for Code", "runner/src/state.rs: State::new, StateMemory::new"]}
{"id": "C15", "title": "Writing over code does not change execution", "statement": "The instruction executed at a pc depends only on the loaded program, never on memory contents; two runs that agree on everything but memory under the code addresses fetch the same instruction at the same pc.", "quantifier": "every program and any memory contents", "why_tests_cant": "self-modifying behaviours cannot be enumerated", "anchors": ["runner/src/state.rs: current_instruction", "runner/src/code.rs: get_instruction"]}
{"id": "C20", "title": "ADD table is sound and complete", "statement": "A row of the ADD table whose destination is a 32-bit value satisfies the constraint only if destination = op1 + op2 + imm mod 2^32 (for op1, op2+imm in 32 bits), and the row generated from any decoded ADD execution satisfies it.", "quantifier": "all field-element assignments / all ADD executions", "why_tests_cant": "a malicious prover may choose any field elements", "anchors": ["circuits/src/ops/add/stark.rs: generate_constraints", "circuits/src/ops/add/mod.rs: generate"]}
{"id": "C21", "title": "CPU constraints force SUB, SLT(U), AND, OR, XOR", "statement": "If a CPU row satisfies the CPU constraints, the range checks and the XOR lookup with the corresponding selector set, then the destination equals the VM's result for that instruction on the row's operands.", "quantifier": "all field-element assignments", "why_tests_cant": "soundness quantifies over all malicious witnesses", "anchors": ["circuits/src/cpu/sub.rs", "circuits/src/cpu/bitwise.rs", "circuits/src/cpu/signed_comparison.rs", "circuits/src/cpu/branches.rs: comparison_constraints", "circuits/src/cpu/columns.rs: rangecheck_looking"]}
{"id": "C22", "title": "CPU constraints force the multiplication results", "statement": "If a CPU row satisfies the constraints, range checks and lookups with MUL, MULH (signed, unsigned, mixed) or SLL selected, the destination is the VM's result; in particular the 64-bit product cannot be aliased modulo the Goldilocks prime.", "quantifier": "all field-element assignments", "why_tests_cant": "the prime is smaller than 2^64 so near-collisions exist that sampling never hits", "anchors": ["circuits/src/cpu/mul.rs: constraints, bit_to_sign", "circuits/src/cpu/shift.rs"]}
{"id": "C23", "title": "CPU constraints force the division and right-shift results", "statement": "If a CPU row satisfies the constraints, range checks and lookups with DIV/DIVU/REM/REMU/SRL/SRA selected, the destination is the VM's result, including division by zero and signed overflow.", "quantifier": "all field-element assignments", "why_tests_cant": "soundness quantifies over all malicious witnesses", "anchors": ["circuits/src/cpu/div.rs: constraints", "circuits/src/cpu/shift.rs"]}
{"id": "C24", "title": "CPU constraints force the next pc", "statement": "If a CPU row satisfies the constraints, new_pc is pc+4 for straight-line instructions, the branch target or pc+4 according to the comparison for branches, and (op1+op2) wrapped for JALR with the return address pc+4 wrapped in the destination.", "quantifier": "all field-element assignments", "why_tests_cant": "soundness quantifies over all malicious witnesses", "anchors": ["circuits/src/cpu/branches.rs: constraints", "circuits/src/cpu/jalr.rs", "circuits/src/cpu/stark.rs: pc_ticks_up"]}
{"id": "C25", "title": "An honest CPU trace row satisfies all CPU constraints", "statement": "For every VM step of a decoded instruction handled by the CPU table, the generated row satisfies every CPU constraint and every value it sends to the range check is a 32-bit value.", "quantifier": "every VM step", "why_tests_cant": "completeness over all 2^64 operand pairs for each instruction", "anchors": ["circuits/src/cpu/generation.rs: generate_cpu_trace and helpers", "circuits/src/cpu/stark.rs: generate_constraints"]}
{"id": "C26", "title": "At most one operation is selected per row", "statement": "In any CPU row satisfying the constraints at most one opcode selector is 1 and all others are 0, and an ECALL row selects exactly one environment call whose number equals a0.", "quantifier": "all field-element assignments", "why_tests_cant": "soundness quantifies over all malicious witnesses", "anchors": ["circuits/src/cpu/stark.rs: binary_selectors", "circuits/src/cpu/ecall.rs: constraints"]}
{"id": "C27", "title": "XOR table is sound and complete", "statement": "Every row satisfying the XOR table constraints has 32-bit a, b, out with out = a xor b; the generated row for 32-bit inputs satisfies them.", "quantifier": "all field-element assignments / all 32-bit inputs", "why_tests_cant": "2^64 inputs", "anchors": ["circuits/src/xor/stark.rs: generate_constraints", "circuits/src/xor/generation.rs: to_bits, generate_xor_trace"]}
{"id": "C28", "title": "Bitshift table contains exactly the powers of two", "statement": "Every trace satisfying the bitshift constraints, of any length, contains only rows (k, 2^k) with 0<=k<=31 and contains each of them; the generated trace satisfies them.", "quantifier": "all traces of any length", "why_tests_cant": "unbounded trace length, arbitrary rows", "anchors": ["circuits/src/bitshift/stark.rs: generate_constraints", "circuits/src/bitshift/generation.rs"]}
{"id": "C29", "title": "CPU skeleton counts the clock and halts once", "statement": "In every skeleton trace satisfying the constraints the clock starts at 2 and increases by one per running row, the running rows form a non-empty prefix, the first pc is the public entry point and the last row is not running; the generated trace of any VM run satisfies them.", "quantifier": "all traces of any length", "why_tests_cant": "unbounded traces", "anchors": ["circuits/src/cpu_skeleton/stark.rs: generate_constraints", "circuits/src/cpu_skeleton/generation.rs"]}
{"id": "C30", "title": "Register table reads return the last write", "statement": "In every register trace satisfying the constraints and the clock range check, each read of a register returns the value of the latest preceding write (or the initial value) of the same register in clock order.", "quantifier": "all traces of any length", "why_tests_cant": "unbounded histories of reads and writes", "anchors": ["circuits/src/register/general/stark.rs: generate_constraints", "circuits/src/register/general/columns.rs: rangecheck_looking"]}
{"id": "C31", "title": "Memory table loads return the last store", "statement": "In every memory trace satisfying the constraints and range checks, each load at an address returns the value of the latest preceding store or init of that address in clock order, and an address initialised read-only is never stored to.", "quantifier": "all traces of any length", "why_tests_cant": "unbounded histories", "anchors": ["circuits/src/memory/stark.rs: generate_constraints", "circuits/src/memory/columns.rs: rangecheck_looking"]}
{"id": "C32", "title": "Program-ROM packing is injective on instructions", "statement": "Two decoded instructions with the same packed ROM word have the same opcode selector, signedness flags, registers and immediate, so a prover cannot run a different instruction than the one in the ROM.", "quantifier": "all pairs of instructions", "why_tests_cant": "all pairs of 2^62 encodings", "anchors": ["circuits/src/program/columns.rs: From<Instruction<F>> for ProgramRom", "circuits/src/cpu/columns.rs: lookup_for_program_rom"]}
{"id": "C33", "title": "Half- and full-word memory tables split words into bytes", "statement": "A row of the half/full-word table satisfying the constraints addresses consecutive bytes modulo 2^32 and its limbs recombine to the word value exchanged with the CPU; the row generated from a VM load/store satisfies them.", "quantifier": "all field-element assignments with 32-bit addresses / all executions", "why_tests_cant": "wrap-around addresses are never sampled", "anchors": ["circuits/src/memory_halfword/stark.rs", "circuits/src/memory_fullword/stark.rs", "circuits/src/memory_halfword/generation.rs"]}
{"id": "C34", "title": "Range-check table admits exactly 32-bit values", "statement": "A value looked up in the range-check table, whose four limbs are looked up in the 256-row byte table, is in 0..2^32-1; each 32-bit value has such a row.", "quantifier": "all field-element assignments", "why_tests_cant": "soundness quantifies over all malicious witnesses", "anchors": ["circuits/src/rangecheck/columns.rs", "circuits/src/rangecheck_u8/stark.rs", "circuits/src/rangecheck/generation.rs: limbs_from_u32"]}
{"id": "C35", "title": "BLT-taken table only takes branches whose condition holds", "statement": "Every running row of the table for taken BLTU branches has an unsigned first operand smaller than the second, so that a proof cannot claim a branch the VM would not take.", "quantifier": "all tables accepted by the verifier", "why_tests_cant": "tests prove honest traces; soundness quantifies over adversarial traces", "anchors": ["circuits/src/ops/blt_taken/mod.rs", "circuits/src/ops/blt_taken/stark.rs", "circuits/src/stark/mozak_stark.rs: RangecheckTable::lookups"]}
{"id": "C36", "title": "CPU constraints force load and store operands", "statement": "On every accepted CPU row of a load or store, the address exchanged with memory is base register plus offset modulo 2^32; a load writes the (sign- or zero-extended) value exchanged with memory; a store sends the low bytes of the source register.", "quantifier": "all accepted CPU tables and all their load/store rows", "why_tests_cant": "tests prove honest traces; soundness quantifies over adversarial traces", "anchors": ["circuits/src/cpu/memory.rs", "circuits/src/cpu/columns.rs: rangecheck_looking, lookup_for_xor"]}
{"id": "C40", "title": "merkleize computes the address-prefix tree", "statement": "For any list of (address, hash) sorted by address with no three-way ties broken arbitrarily, merkleize returns the root of the binary tree that splits on the highest differing address bit, combining equal-address entries first; the empty list gives the default digest and a singleton its own hash.", "quantifier": "all sorted lists of any length", "why_tests_cant": "unbounded lists; the only test has 4 leaves", "anchors": ["sdk/src/common/merkle.rs: merkleize, merkleize_step"]}
{"id": "C41", "title": "Event commitment is computed over address-sorted events", "statement": "The list of (u64 address, hash) pairs that canonical_hash passes to merkleize is sorted by that u64 address, as merkleize requires.", "quantifier": "all sets of events", "why_tests_cant": "requires all address pairs", "anchors": ["sdk/src/native/eventtape.rs: canonical_hash, get_canonical_ordering", "sdk/src/common/merkle.rs: merkleize"]}
{"id": "C42", "title": "Canonical/temporal hints are mutually inverse permutations", "statement": "For any list of events, the temporal hints attached to the canonical order form a permutation p such that the canonical event at position p(i) is the i-th emitted event.", "quantifier": "all event lists", "why_tests_cant": "all orderings and ties", "anchors": ["sdk/src/native/eventtape.rs: get_canonical_order_temporal_hints, get_temporal_order_canonical_hints"]}
{"id": "C43", "title": "The VM event tape accepts exactly the recorded events", "statement": "Running a program in the VM on the event tape produced natively accepts the same emission sequence; and any emission sequence accepted through clean shutdown, on any (possibly malicious) tape, emits each canonical event of the tape exactly once.", "quantifier": "all tapes and emission sequences", "why_tests_cant": "tapes are adversarial inputs of any length", "anchors": ["sdk/src/mozakvm/eventtape.rs: emit", "sdk/src/common/system.rs: ensure_clean_shutdown"]}
{"id": "C44", "title": "The call tape replays exactly the recorded calls", "statement": "A VM run that sends/receives against the call tape and shuts down cleanly has consumed every tape message addressed to it exactly once and in order, each with matching caller, callee and argument; receive never returns the same message twice.", "quantifier": "all tapes and call sequences", "why_tests_cant": "adversarial tapes of any length", "anchors": ["sdk/src/mozakvm/calltape.rs: send, receive", "sdk/src/native/calltape.rs: send", "sdk/src/native/identity.rs"]}
{"id": "C45", "title": "Native call nesting keeps caller identity", "statement": "During any tree of nested native calls, each recorded call's caller is the callee of the enclosing call (or the default identity at top level), the return value is stored in the same entry as its argument, and the identity stack is restored on return.", "quantifier": "all finite call trees", "why_tests_cant": "trees of unbounded depth and width", "anchors": ["sdk/src/native/calltape.rs: send", "sdk/src/native/identity.rs: IdentityStack"]}
{"id": "C46", "title": "Hash padding is injective", "statement": "Two different byte strings never have the same padded form, and the padded length is always a positive multiple of the rate.", "quantifier": "all pairs of byte strings", "why_tests_cant": "unbounded lengths", "anchors": ["sdk/src/native/poseidon.rs: poseidon2_hash_with_pad", "sdk/src/mozakvm/poseidon.rs"]}
{"id": "C47", "title": "Digest words and bytes convert losslessly", "statement": "from_u64s and to_u64s are mutually inverse between 4 u64 words and 32 bytes.", "quantifier": "all digests", "why_tests_cant": "2^256 digests", "anchors": ["sdk/src/common/types/poseidon2hash.rs: from_u64s, to_u64s"]}
{"id": "C48", "title": "The accepted event commitment is fixed by the emitted events", "statement": "For every event tape a prover may supply, two runs of the VM that emit the same events and shut down cleanly accept the same event commitment.", "quantifier": "all event tapes (honest or not), all emission sequences", "why_tests_cant": "the tape is chosen by an adversary; tests only replay honestly produced tapes", "anchors": ["sdk/src/mozakvm/eventtape.rs: emit", "sdk/src/common/system.rs: ensure_clean_shutdown", "sdk/src/common/merkle.rs: merkleize"]}
{"id": "C49", "title": "Reading an input tape returns its next bytes", "statement": "For every input tape, every sequence of reads and seeks: a read of n bytes at offset o returns the bytes o..o+n of the tape (at most what is left) and advances the offset by the number returned; already read bytes can be read again after seeking.", "quantifier": "all tapes, all interleavings of read and seek of any sizes", "why_tests_cant": "unbounded histories of reads and seeks over an internal cache", "anchors": ["sdk/src/mozakvm/inputtape.rs: RandomAccessEcallTape, read, seek"]}
{"id": "C50", "title": "The guest allocator returns disjoint aligned blocks", "statement": "Any sequence of allocation requests returns blocks that are aligned as requested, lie after the end of the program image and below 2^32, and are pairwise disjoint.", "quantifier": "all sequences of valid layouts, any image end", "why_tests_cant": "unbounded sequences and wrap-around at the end of the address space", "anchors": ["sdk/src/core/alloc.rs: alloc_aligned"]}
{"id": "C51", "title": "Tapes assembled from a native run are accepted in the VM", "statement": "For every native run and every program in it, the tapes the command line builds from the system tape let that program, when it repeats its own emissions in order and reaches the end of the call tape, pass the clean-shutdown check, including both commitments.", "quantifier": "all trees of native calls, all programs", "why_tests_cant": "all call trees and event sequences", "anchors": ["cli/src/runner.rs: raw_tapes_from_system_tape", "sdk/src/common/system.rs: populate_call_tape, populate_event_tape, ensure_clean_shutdown"]}
{"id": "C52", "title": "Recursive aggregation of unbounded depth", "statement": "An accepted proof of one of the recursive circuits summarises a finite tree of leaf statements, each accepted by the leaf circuit and each combined by the branch rule; every such tree has an accepted proof; and nothing else is accepted.", "quantifier": "all trees of any depth, all leaf statements, all provers", "why_tests_cant": "unbounded recursion depth and an adversarial prover", "anchors": ["recproofs/src/subcircuits/unbounded.rs: LeafSubCircuit, BranchSubCircuit", "recproofs/src/lib.rs: dummy_circuit, circuit_data_for_recursion"]}
{"id": "C53", "title": "Event roots commit to the same events in both hash formats", "statement": "A genuine event-root proof's field-hash root and VM byte-hash root belong to one tree of events, all emitted by the stated owner; without hash collisions the events are determined by the root; every such tree can be proved; the VM-format addresses are the event addresses. A proof is genuine when every recursive proof inside it names its own circuit as its verifier.", "quantifier": "all trees of events, all owners, all provers", "why_tests_cant": "adversarial witnesses; all trees", "anchors": ["recproofs/src/circuits/build_event_root.rs: LeafCircuit, BranchCircuit", "recproofs/src/lib.rs: hash_event, byte_wise_hash, hash_or_forward"]}
{"id": "C54", "title": "Merging event lists loses and reorders nothing", "statement": "A genuine merge proof states the root of a tree whose leaves are an interleaving of the leaves of the two given event trees; every interleaving can be proved. A proof is genuine when every recursive proof inside it names its own circuit as its verifier.", "quantifier": "all pairs of event trees, all interleavings, all provers", "why_tests_cant": "all trees and adversarial witnesses", "anchors": ["recproofs/src/circuits/merge.rs: LeafCircuit, BranchCircuit", "recproofs/src/circuits/merge/embed.rs: MergeSubCircuit"]}
{"id": "C55", "title": "Transactions consist of agreeing programs", "statement": "In a genuine transaction proof, all programs of a transaction state the same call list and the same cast list, the cast list is exactly the list of programs' ids, every event carries the id of the program that emitted it, all events are kept in each program's order, and the program proof was made by the program with that id. A proof is genuine when every recursive proof inside it names its own circuit as its verifier.", "quantifier": "all transactions and bundles of transactions, all provers", "why_tests_cant": "adversarial provers, all trees of programs", "anchors": ["recproofs/src/circuits/verify_program.rs", "recproofs/src/circuits/verify_tx.rs", "recproofs/src/circuits/verify_program/core.rs"]}
{"id": "C56", "title": "Accumulated events describe exactly the events", "statement": "A genuine accumulated description of an object states an address shared by all its events, flags that say which kinds of event occur, at most one write, give and take, owners and data that agree with every event, and the sum of the credit changes; every consistent set of events can be accumulated. A proof is genuine when every recursive proof inside it names its own circuit as its verifier.", "quantifier": "all trees of events about one object, all provers", "why_tests_cant": "all event multisets, adversarial witnesses", "anchors": ["recproofs/src/circuits/accumulate_delta.rs", "recproofs/src/circuits/accumulate_delta/core.rs: LeafSubCircuit, BranchSubCircuit"]}
{"id": "C57", "title": "Object changes are explained by events", "statement": "A genuine match proof at a block height relates a tree of events to a tree of object changes such that each change follows the object rules (creation, write, transfer of ownership, credits, deletion) and stamps the height when something changed; every tree of legal changes can be proved. A proof is genuine when every recursive proof inside it names its own circuit as its verifier.", "quantifier": "all trees of object changes, all heights, all provers", "why_tests_cant": "all state transitions; adversarial witnesses", "anchors": ["recproofs/src/circuits/match_delta.rs: LeafCircuit, BranchCircuit"]}
{"id": "C58", "title": "State updates change only the summarised leaves", "statement": "An accepted state update of a given height relates two perfect trees that differ only in summarised leaves; the summary lists exactly the touched leaves in order, with each leaf's index as its address; every such update can be proved.", "quantifier": "all tree heights, all pairs of states, all provers", "why_tests_cant": "unbounded height, all sets of changes", "anchors": ["recproofs/src/circuits/state_update.rs: LeafCircuit, BranchCircuit", "recproofs/src/subcircuits/verify_address.rs", "recproofs/src/subcircuits/summarized.rs"]}
{"id": "C59", "title": "A block proof proves the whole chain", "statement": "An accepted block proof with height n means that n blocks, each a legal change of state justified by its transactions, lead from the stated base state to the stated state.", "quantifier": "all chains of blocks, all provers", "why_tests_cant": "unbounded chains, adversarial provers", "anchors": ["recproofs/src/circuits/verify_block.rs: Circuit", "recproofs/src/circuits/verify_block/core.rs"]}
{"id": "C60", "title": "Only events of transactions change the state", "statement": "In a genuine block every state leaf that changes has an event at its address emitted by a program in one of the block's transactions, owned by that program; a block without events cannot be proved. A proof is genuine when every recursive proof inside it names its own circuit as its verifier.", "quantifier": "all blocks, all state heights", "why_tests_cant": "all states and blocks, adversarial provers", "anchors": ["recproofs/src/circuits/verify_block.rs: Circuit", "recproofs/src/circuits/match_delta.rs", "recproofs/src/circuits/state_update.rs"]}
{"id": "C61", "title": "Only the owner changes an object", "statement": "In a genuine match proof a write to an object is by its owner, an ensure event states data the object really has after the block, and credits are changed by the exact sum of the amounts without going below zero. A proof is genuine when every recursive proof inside it names its own circuit as its verifier.", "quantifier": "all objects and events, all provers", "why_tests_cant": "all state transitions; adversarial witnesses", "anchors": ["recproofs/src/circuits/match_delta.rs: LeafCircuit", "recproofs/src/circuits/accumulate_delta/core.rs"]}
{"id": "C62", "title": "The block proposer's state is a map in blocks", "statement": "After any sequence of read, delete and upsert operations at any addresses, without conflicts inside a block, and of ends of blocks, looking up any address gives the object that was there when the current block began and the object that will be there when it ends; an operation does not affect other addresses; at the end of a block the new objects become the old ones; an operation that conflicts with an earlier one of the same block (delete after upsert, upsert after delete, two different upserts) is refused.", "quantifier": "all tree depths, all operation histories over any number of blocks, all addresses", "why_tests_cant": "unbounded histories and all interleavings of addresses in a sparse tree", "anchors": ["node/src/block_proposer/state.rs: State::new, apply_operation, finalize, get_state", "node/src/block_proposer.rs: Address::next"]}
{"id": "C63", "title": "The state proof states exactly what the block did", "statement": "At any time the state's proof is accepted by the state-update circuit of its depth and states the root of the state before the block, the root after it, and exactly the addresses touched in this block, each with its old and new object hash; so the next block's old root is this block's new root.", "quantifier": "all tree depths, all operation histories over any number of blocks", "why_tests_cant": "unbounded histories; proofs are cached in the tree and must never be stale", "anchors": ["node/src/block_proposer/state.rs: apply_operation, finalize", "recproofs/src/circuits/state_update.rs"]}
{"id": "C64", "title": "Rows record what their step did", "statement": "For every row of an execution record: the recorded operands are the source registers (second operand with the immediate added, as a power of two for shifts, raw for branches), the recorded next pc and halt flag are those of the next state, the destination register (and no other) holds the recorded result, a load or store records its wrapped address, its value as read from or found in memory after the step, and exactly the byte addresses it used, and memory changes only at recorded addresses.", "quantifier": "all programs, states, instructions and runs", "why_tests_cant": "every instruction with every operand; the prover builds all its tables from these rows", "anchors": ["runner/src/vm.rs: State::execute_instruction, store, step", "runner/src/state.rs: Aux, register_op, memory_load, branch_op", "runner/src/ecall.rs"]}
{"id": "C65", "title": "Lists are combined in a balanced tree, the cast root is the SDK's", "statement": "Combining a list with the block proposer's reduction gives nothing exactly for the empty list and otherwise the result of pairing neighbours in rounds, an odd last element being kept, for every merge function. Hence the cast root under which a transaction's programs are collected is the cast commitment the SDK computes.", "quantifier": "all lists, lengths, merge functions and hash functions", "why_tests_cant": "every length; the stack of subtree sizes depends on all bits of the length", "anchors": ["node/src/block_proposer.rs: reduce_tree", "node/src/block_proposer/transactions.rs: TransactionAccumulator::ingest_program", "sdk/src/common/merkle.rs: merkleize"]}
{"id": "C66", "title": "The node's event tree is the tree the SDK commits to", "statement": "For every non-empty list of events of one program the event tree is built, contains exactly these events in the order given, and its hash is the root of that tree; when events are ordered by address, it splits on the highest bit in which addresses differ and combines events at one address in rounds. The SDK's commitment to the same events, in any order and for any hash, is the root of the same tree.", "quantifier": "all event lists in any order, hash functions, leaf digests", "why_tests_cant": "every set of 64-bit addresses in every order with repetitions", "anchors": ["node/src/block_proposer.rs: reduce_tree_by_address, reduce_tree_by_address_step", "node/src/block_proposer/transactions.rs: TransactionAccumulator::ingest_program", "sdk/src/common/merkle.rs: merkleize"]}
{"id": "C67", "title": "Partial addresses compare and join as ranges", "statement": "Comparing two partial addresses tells which of nine relations between the ranges of leaves below them holds, and only one holds; the common ancestor of two is above both and below every other partial address above both; the children of a branch are its two halves.", "quantifier": "all partial addresses", "why_tests_cant": "every pair of heights and 64-bit addresses; shift amounts reach the word size", "anchors": ["node/src/block_proposer.rs: BranchAddress::compare, common_ancestor, child, parent"]}
{"id": "C68", "title": "Programs of a transaction may arrive in any order", "statement": "Whatever the order in which the programs of a cast are ingested, every one is accepted, the transaction is complete exactly when all have been ingested, and the result combines them in cast order.", "quantifier": "all cast sizes and orders", "why_tests_cant": "every order of every cast size", "anchors": ["node/src/block_proposer/transactions.rs: TransactionAccumulator::ingest_program, AuxTransactionData::insert_program", "node/src/block_proposer.rs: AddressPath::path, next"]}
{"id": "C69", "title": "Merging event trees gives the tree of all events", "statement": "Merging the event trees of two programs that have at most one event per address each never fails, gives the event tree over the events of both in address order (the first program's first at a common address), and the merge proof states the two roots and the merged root; either side may have no events. When all addresses of all programs differ, the merged tree does not depend on the order or grouping of programs.", "quantifier": "all programs, event sets, hash functions, orders and groupings", "why_tests_cant": "every pair of tree shapes; the recursion compares subtrees of every height and position", "anchors": ["node/src/block_proposer/transactions.rs: merge_events, merge_events_inner, simple_merge", "node/src/block_proposer.rs: BranchAddress::compare, common_ancestor"]}
{"id": "C70", "title": "The match proof and the transaction proof state the same event root", "statement": "The event hash stated by the match proof of a block equals the root of the merged event tree of the block's transactions, whatever the order in which the event lists and the ready notifications arrive. The block proof requires the two to be equal.", "quantifier": "all histories of ingest and ready calls over any transactions, all events and hash functions", "why_tests_cant": "every interleaving of calls and every address set", "anchors": ["node/src/block_proposer/matches.rs: Matches::ingest_events, ready_tx, finalize", "node/src/block_proposer/transactions.rs: TransactionAccumulator::ingest_program", "recproofs/src/circuits/match_delta.rs: BranchCircuit", "recproofs/src/circuits/block.rs: BlockCircuit"]}
{"id": "C71", "title": "Tape reads of every execution can be proved", "statement": "For every execution, the seven tape tables the prover generates satisfy their constraints, agree with the CPU table, send to memory exactly the bytes the reads delivered (consecutive addresses modulo 2^32, at the clock of the call) and to the register table exactly the reads of a1.", "quantifier": "all programs, tapes and executions, including empty, partial and wrapping reads", "why_tests_cant": "every sequence of reads; the constraints relate neighbouring rows of consecutive reads and the last row to the first", "anchors": ["circuits/src/storage_device/generation.rs: generate_storage_trace", "circuits/src/storage_device/stark.rs: generate_constraints", "circuits/src/storage_device/columns.rs: lookup_for_cpu, lookup_for_memory, register_looking", "circuits/src/cpu/columns.rs: lookup_for_storage_tables"]}
{"id": "C72", "title": "An accepted proof writes exactly the bytes of the tape reads", "statement": "In every accepted set of tables a tape read of n bytes writes exactly n bytes, to the consecutive addresses from its address on, at its clock, and tape tables write nothing else.", "quantifier": "all accepted CPU, tape and memory tables", "why_tests_cant": "a malicious prover chooses the tables; tests only run the honest one", "anchors": ["circuits/src/storage_device/stark.rs: generate_constraints", "circuits/src/stark/mozak_stark.rs: StorageDeviceToCpuTable, IntoMemoryTable"]}
{"id": "C73", "title": "Published tape commitments are the ones the program read", "statement": "The event and cast-list commitments a proof publishes are the 32-byte tapes of the execution, byte for byte, every byte the program read from them is one of the published ones, and every execution reading them can be proved.", "quantifier": "all executions, all accepted tables, all published values", "why_tests_cant": "universally over tables and published lists; permutations of the bytes", "anchors": ["circuits/src/tape_commitments/stark.rs: generate_constraints", "circuits/src/tape_commitments/generation.rs: generate_tape_commitments_trace", "circuits/src/tape_commitments/columns.rs: make_event_commitment_tape_public, make_castlist_commitment_tape_public", "circuits/src/public_sub_table.rs: PublicSubTable"]}
{"id": "C74", "title": "Hash calls of every execution can be proved", "statement": "For every execution, the three Poseidon2 tables the prover generates satisfy their constraints, agree with each other and with the CPU table, read the three argument registers of each call, load exactly the message and store exactly the 32 bytes of its digest.", "quantifier": "all programs, messages, addresses and executions; all permutation constants", "why_tests_cant": "every sequence of calls and every message length; the constraints relate neighbouring rows and the last row to the first", "anchors": ["circuits/src/poseidon2_sponge/generation.rs: generate_poseidon2_sponge_trace", "circuits/src/poseidon2_sponge/stark.rs: generate_constraints", "circuits/src/poseidon2/generation.rs: generate_poseidon2_trace", "circuits/src/poseidon2_output_bytes/generation.rs: generate_poseidon2_output_bytes_trace", "circuits/src/poseidon2_sponge/columns.rs: lookup_for_cpu, lookup_for_input_memory, register_looking"]}
{"id": "C75", "title": "An accepted proof stores the digest of the message, where the call says", "statement": "In every accepted set of tables, each hash call loads the message given by registers a1 and a2 and stores its Poseidon2 digest at the address in a3, and digests are stored and messages loaded for no other reason.", "quantifier": "all accepted CPU, sponge, permutation, output and memory tables; all permutation constants", "why_tests_cant": "a malicious prover chooses the tables; tests only run the honest one", "anchors": ["circuits/src/poseidon2_sponge/stark.rs: generate_constraints", "circuits/src/poseidon2_output_bytes/stark.rs: generate_constraints", "circuits/src/stark/mozak_stark.rs: Poseidon2SpongeCpuTable, Poseidon2Poseidon2SpongeTable, Poseidon2OutputBytesPoseidon2SpongeTable, IntoMemoryTable, RegisterLookups"]}
{"id": "C76", "title": "The permutation table computes the Poseidon2 permutation", "statement": "Every row of an accepted permutation table relates a state to its image under the Poseidon2 permutation, and every state has an accepted row.", "quantifier": "all states, tables and permutation constants", "why_tests_cant": "universally over columns a prover may choose, in particular the helper columns of the S-box", "anchors": ["circuits/src/poseidon2/stark.rs: generate_constraints", "circuits/src/poseidon2/generation.rs: generate_poseidon2_state, generate_1st_full_round_state, generate_partial_round_state, generate_2nd_full_round_state"]}
{"id": "C77", "title": "Memory of every execution can be proved", "statement": "For every halting execution, the memory table the prover generates satisfies its constraints and range checks, holds exactly the accesses the other tables ask for and exactly the initial memory, and each row states the byte the machine held at that moment.", "quantifier": "all programs, tapes and halting executions of up to 2^30 - 2 steps; all permutation constants", "why_tests_cant": "every interleaving of stores, loads, tape reads and hash calls on every address; the constraints relate rows after sorting by address and clock", "anchors": ["circuits/src/memory/generation.rs: generate_memory_trace, generate_memory_trace_from_execution, transform_halfword, transform_fullword, transform_poseidon2_sponge, transform_poseidon2_output_bytes, transform_storage_device", "circuits/src/memory/stark.rs: generate_constraints", "circuits/src/memoryinit/generation.rs: generate_memory_init_trace", "circuits/src/memory_zeroinit/generation.rs: generate_memory_zero_init_trace", "circuits/src/stark/mozak_stark.rs: IntoMemoryTable, MemoryInitMemoryTable"]}
{"id": "C78", "title": "Registers of every execution can be proved", "statement": "For every halting execution, the ADD, BLTU and register tables are generated without a panic, the register table satisfies its constraints and range checks, together with the two x0 tables it holds exactly the register accesses every other table asks for, and each row states the value the machine held at that moment.", "quantifier": "all programs, tapes and halting executions of up to 2^31 - 2 steps; all permutation constants", "why_tests_cant": "every interleaving of reads and writes of 32 registers by six kinds of tables; the constraints relate rows after sorting by register and clock", "anchors": ["circuits/src/register/generation.rs: extract, sort_into_address_blocks, generate_register_trace, generate_register_init_trace", "circuits/src/register/general/stark.rs: generate_constraints", "circuits/src/register/zero_read/columns.rs: From<Register>", "circuits/src/register/zero_write/columns.rs: From<Register>", "circuits/src/ops/add/mod.rs: generate", "circuits/src/ops/blt_taken/mod.rs: generate", "circuits/src/stark/mozak_stark.rs: RegisterLookups"]}
{"id": "C79", "title": "Every execution can be proved", "statement": "For every halting execution of a loaded program, all tables of the proof are generated without a panic, every table satisfies its constraints, all eighteen cross-table lookups balance and the public tables hold the two commitment tapes: an honest prover can always produce a proof.", "quantifier": "all programs with decoded code (every ELF file the loader accepts), tapes and halting executions of up to 2^30 - 2 steps; all permutation constants", "why_tests_cant": "a proof needs 24 tables generated from the whole execution to agree with each other in every row; every pair of instruction sequence and data gives other tables", "anchors": ["circuits/src/generation.rs: generate_traces", "circuits/src/stark/mozak_stark.rs: RangecheckTable, XorCpuTable, IntoMemoryTable, MemoryInitMemoryTable, BitshiftCpuTable, InnerCpuTable, ProgramCpuTable, RangeCheckU8LookupTable, HalfWordMemoryCpuTable, FullWordMemoryCpuTable, RegisterLookups, StorageDeviceToCpuTable, Poseidon2SpongeCpuTable, Poseidon2Poseidon2SpongeTable, Poseidon2OutputBytesPoseidon2SpongeTable, EventCommitmentTapeIOLookupTable, CastlistCommitmentTapeIOLookupTable", "circuits/src/rangecheck/generation.rs: generate_rangecheck_trace", "circuits/src/rangecheck_u8/generation.rs: generate_rangecheck_u8_trace", "circuits/src/program/generation.rs: generate_program_rom_trace", "circuits/src/cpu/generation.rs: generate_program_mult_trace", "circuits/src/stark/mozak_stark.rs: CpuToSkeletonTable"]}
{"id": "C80", "title": "A proof shows an execution", "statement": "If the tables of a proof are accepted for a program (all constraints, all lookups, the program's ROM and initial memory, zero registers, the published commitments), then the program has a halting execution on some tapes whose instruction sequence is the one the tables record.", "quantifier": "all programs and all sets of tables, in particular those no honest prover generates", "why_tests_cant": "a dishonest prover may fill in the tables in any way; tests only ever see tables the honest generator produced", "anchors": ["circuits/src/stark/mozak_stark.rs: PublicInputs, ProgramCpuTable, CpuToSkeletonTable, RegisterLookups", "circuits/src/stark/verifier.rs: verify_proof", "circuits/src/cpu/stark.rs: generate_constraints", "circuits/src/cpu/columns.rs: lookup_for_program_rom, lookup_for_skeleton, register_looking", "circuits/src/cpu_skeleton/stark.rs", "circuits/src/ops/add/stark.rs", "circuits/src/ops/blt_taken/stark.rs", "circuits/src/register/general/stark.rs", "circuits/src/memory/stark.rs: generate_constraints", "circuits/src/memory/columns.rs: lookup_for_cpu, lookup_for_memoryinit", "circuits/src/stark/mozak_stark.rs: IntoMemoryTable, MemoryInitMemoryTable"]}
{"id": "C81", "title": "Compressed lookups decide the balance of tables", "statement": "Lookups between tables and public sub tables are compared through one field element per table and challenge. If the tables balance, the honest prover's values are accepted; if they do not, then whatever auxiliary columns the prover supplies, only a vanishing fraction of the challenges lets the verifier accept: at most (rows * (columns + 2) * p)^k of the p^(2k) lists of k challenges. The verifier adds up exactly the values of each lookup, and compares each public sub table with its claimed values.", "quantifier": "all tables of any number of rows and columns, all numbers of looking and looked tables, all challenges, all auxiliary columns a prover may supply, all orders of lookups over tables", "why_tests_cant": "a test draws a handful of challenges; that almost no challenge deceives is a count over 2^128 challenges and all tables", "anchors": ["circuits/src/cross_table_lookup.rs: partial_sums, compose_ctl_with_challenge, eval_cross_table_lookup_checks, CrossTableLookupWithTypedOutput::new, verify_cross_table_lookups_and_public_sub_tables, cross_table_lookup_data", "circuits/src/stark/permutation.rs: GrandProductChallenge::combine", "circuits/src/public_sub_table.rs: PublicSubTable::get_values, reduce_public_sub_tables_values"]}
{"id": "C82", "title": "A verifier with random challenges", "statement": "The verifier never sees the tables: for all eighteen lookups and the two public sub tables it compares sums of fractions at its random challenges. If in a set of tables some lookup does not balance, or a claimed commitment is not the one shown in the tables, at most (rows * 26 * p)^k of the p^(2k) lists of k challenges let it accept, whatever auxiliary columns the prover supplies; if all balance, it accepts for every challenge that compresses no row to zero.", "quantifier": "all sets of tables of the system with any numbers of rows, all claimed public values, all lists of challenges, all auxiliary columns", "why_tests_cant": "a test tries a few tables and a few challenges; the claim counts challenges for every unbalanced set of tables", "anchors": ["circuits/src/stark/mozak_stark.rs: cross_table_lookups, public_sub_tables, the Lookups of lines 684-971", "circuits/src/stark/batch_verifier.rs: batch_verify_proof", "circuits/src/stark/verifier.rs: verify_proof", "circuits/src/cross_table_lookup.rs: verify_cross_table_lookups_and_public_sub_tables"]}
{"id": "C83", "title": "Constraint expressions mean the same everywhere", "statement": "The constraints of every table are written once, as expressions over a builder. For every program over the builder (literals, constants, integers, +, -, *, negation, is_binary, reduce_with_powers, sums, with any sharing) whose integer-only operations stay within i64: evaluation yields the value of the written expression; evaluation with caches yields the same, in any order and with any repetition, with a number of operations linear in the size of the program; the circuit built from it has, in every assignment that satisfies it, exactly those values, and such an assignment always exists; and the accumulators of the recursive verifier are those of the native one, for every list of constraints of every kind.", "quantifier": "all programs over the expression builder, all fields (and other types of values whose integer constants compute as the integers do), all literals, all orders of evaluation, all circuits, all lists of constraints, all challenges and filters", "why_tests_cant": "a test evaluates a few small expressions; that caching by address never changes a value, and that circuit and native evaluation agree, must hold for every expression and every assignment", "anchors": ["expr/src/lib.rs: Expr, ExprBuilder, ExprTree, Evaluator, PureEvaluator, Cached, Counting", "expr/src/ops.rs", "circuits/src/expr.rs: CircuitBuilderEvaluator, packed_field_evaluator, ConstraintBuilder, build_ext, build_packed"]}
{"id": "C84", "title": "Linear combinations of columns mean what is written", "statement": "Lookups and public sub tables are written as linear combinations of the columns of two consecutive rows. For every program over them (columns of a table, constants, flip, diff, negation, not, +, -, multiplication with integers, sums, reduce_with_powers, ascending_sum) that does not overflow i64, the sparse form evaluates to the value of the written expression on every pair of rows; evaluation on openings, on a trace (the row after the last being the first) and in a circuit agree, and none of them panics for columns of the table; arithmetic on sparse forms, over the integers and over the field, has the value of the arithmetic; the prover's composition of a lookup with a challenge into one linear map yields on every row exactly what the verifier computes from the openings. Programs whose coefficients, added up by size, fit i64 do not panic.", "quantifier": "all programs over linear combinations, all widths and heights of tables, all rows and cells in the field, its quadratic extension or any commutative ring with the integers in it, all challenges, all circuits and assignments", "why_tests_cant": "a test evaluates a few combinations on a few rows; that merging, sorting and composing coefficients never changes a value must hold for every combination and every row", "anchors": ["circuits/src/linear_combination.rs: ColumnSparse, zip_with, eval, eval_row, eval_table, eval_circuit, to_field", "circuits/src/linear_combination_typed.rs: ColumnWithTypedInput", "circuits/src/columns_view.rs: columns_view_impl, make_col_map", "circuits/src/cross_table_lookup.rs: compose_ctl_with_challenge, partial_sums, eval_cross_table_lookup_checks", "circuits/src/stark/mozak_stark.rs: TableWithTypedOutput"]}
{"id": "C85", "title": "A batched proof opens every table's own polynomials and checks its constraints", "statement": "In a batched proof the polynomials of all tables that are not proved separately are committed together, sorted by length. For every assignment of lengths and numbers of polynomials to tables: the indices the prover computes are where a table's polynomials are, in the list and in the leaves of their layer; the openings an honest prover makes pass the verifier's check; and an accepted proof's openings for a table are the values of that table's own polynomials and satisfy its constraints at the challenge point.", "quantifier": "all numbers of tables, all sets of separately proved tables, all lengths of tables and numbers of columns, lookups and quotients, all committed polynomials, challenge points and proofs", "why_tests_cant": "tests prove a few programs in one configuration; that indices of prover and verifier agree must hold for every order of lengths, and that nothing but honest openings is accepted must hold for every proof", "anchors": ["circuits/src/stark/batch_prover.rs: BatchFriOracleIndices, sort_degree_bits, batch_fri_instances, merge_fri_instances", "circuits/src/stark/batch_verifier.rs: batch_verify_proof", "circuits/src/stark/verifier.rs: verify_quotient_polynomials, validate_proof_shape", "circuits/src/stark/proof.rs: StarkOpeningSet", "circuits/src/cross_table_lookup.rs: CtlCheckVars::from_proofs"]}
{"id": "C86", "title": "The rounds of a batched proof's FRI visit every table's degree", "statement": "For every non-empty set of table lengths, blowup and cap height, the folding rounds of the batched FRI each divide the degree by 2, 4 or 8, pass through the degree of every table, and end with a polynomial whose codeword is at least as large as the cap and at most two bits above the intended final size; the computation panics exactly when the cap is larger than the smallest codeword or the blowup exceeds the intended final size.", "quantifier": "all descending lists of degrees, all rates and cap heights", "why_tests_cant": "the test tries three lists; a length that is skipped would make a proof impossible for programs of certain sizes only", "anchors": ["circuits/src/stark/batch_prover.rs: batch_reduction_arity_bits, sort_degree_bits"]}
{"id": "C87", "title": "Checking quotients at one random point checks every constraint on every row", "statement": "For every table length, columns and constraints (on all rows, on transitions, on the first or the last row): if the rows satisfy the constraints and their degree fits the number of quotient chunks, then for every combination challenge there are quotient polynomials the verifier accepts at every point where it does not divide by zero. If some constraint fails at some row, then for all but fewer than [number of constraints] combination challenges no quotient polynomials whatsoever are accepted at more than n * (max(chunks, degree) + 1) points. The verifier's formulas for the first and last row are the Lagrange polynomials of these rows.", "quantifier": "all fields, all table lengths that divide its order, all columns, all lists of polynomial constraints of any degree, all challenges, all quotient polynomials", "why_tests_cant": "tests prove and verify a few traces with pseudo-random challenges; that a violated constraint on a single row is caught for almost all challenges, whatever the prover commits to, is a statement about all polynomials", "anchors": ["circuits/src/stark/verifier.rs: verify_quotient_polynomials, eval_l_0_and_l_last", "circuits/src/stark/poly.rs: compute_quotient_polys, eval_vanishing_poly", "circuits/src/stark/prover.rs: prove_single_table"]}
{"id": "C88", "title": "The quotients the prover computes on a coset are accepted", "statement": "For every trace that satisfies its constraints, the prover's computation of the quotient - values of columns looked up in the commitment's domain with the strides of poly.rs, the next row a stride further with wrap-around, first- and last-row polynomials extended to the coset, division by the vanishing polynomial, the inverse transform, trimming and chunking - neither panics nor fails, and yields quotients that the verifier accepts at every point where it does not divide by zero.", "quantifier": "all fields, trace lengths, blowups, numbers of chunks up to the blowup, columns, constraints of fitting degree, challenges, and cosets disjoint from the domain", "why_tests_cant": "tests run the prover on a few traces of a few lengths; a wrong stride or wrap-around for some combination of length, blowup and degree would only show for that combination", "anchors": ["circuits/src/stark/poly.rs: compute_quotient_polys", "circuits/src/stark/batch_prover.rs: batch_prove", "circuits/src/stark/prover.rs: prove_single_table"]}
{"id": "C89", "title": "A table's recursive verifier checks the quotients exactly as the verifier does", "statement": "For all openings and challenges, the gates with which the recursive verifier checks a table's quotients can be satisfied if and only if the verifier accepts the same quotients, including where the verifier would divide by zero; the witness is determined; the check covers every challenge, each with its own chunk of the openings; so the circuit inherits the verifier's soundness (a violated constraint leaves only boundedly many points at which it can be satisfied) and completeness.", "quantifier": "all fields, degrees, constraints, numbers of challenges and chunks, openings, points and witnesses", "why_tests_cant": "tests build the circuit for a few honest proofs; an unsound gate would only show for a dishonest witness, and there are unboundedly many", "anchors": ["circuits/src/stark/recursive_verifier.rs: verify_quotient_polynomials_circuit, eval_l_0_and_l_last_circuit", "circuits/src/stark/verifier.rs: verify_quotient_polynomials"]}
{"id": "C90", "title": "Prover and verifier draw the same challenges, after everything they must not depend on", "statement": "For all proofs and all lists of public tables, the verifier of a batched proof draws exactly the challenges the prover drew, and the recursive verifier's challenger draws the verifier's for every sequence of operations; and whatever a statement consists of (public inputs, published rows of tables) is fixed before the challenges that check it are drawn.", "quantifier": "all permutations, messages, tables, lists of public tables, numbers of challenges and queries; all published rows and challenges", "why_tests_cant": "tests prove and verify with one list of public tables and honest public values; neither another order nor values computed from the challenges are tried", "anchors": ["circuits/src/stark/batch_prover.rs: batch_prove, batch_prove_with_commitments", "circuits/src/stark/batch_verifier.rs: batch_verify_proof", "circuits/src/stark/proof.rs: get_challenges", "circuits/src/public_sub_table.rs: reduce_public_sub_tables_values"]}
