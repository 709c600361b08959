{
 "C20": {
  "note": "soundness assumes what the range-check lookup of the row gives (see C34); from clock 2^32 on ADD generation panics (part of C20_add_complete)"
 },
 "C21": {
  "note": "SUB/AND/OR/XOR proved in full; SLT(U) needs abs_diff to be range checked, which it is not: C21_slt_refuted exhibits an accepted table"
 },
 "C23": {
  "note": "needs quotient_sign to be a bit on rows with skip_check_quotient_sign = 1; refuted otherwise (DIVU, REMU, SRL)"
 },
 "C24": {
  "note": "branches proved; straight-line/jumps hold on all rows but the last (transition constraints); refuted: last row, JALR target range, ECALL next pc"
 },
 "C25": {
  "note": "proved for every provable step; refuted for -31/-1, odd JALR target, pc wrap"
 },
 "C34": {
  "note": "proved when multiplicities are non-negative with totals below p; refuted in general (multiplicity -1 rows)"
 },
 "C35": {
  "note": "the range check of the table is never registered and it has no constraints"
 },
 "C36": {
  "note": "address proved in full; LW/SW values unconstrained, LB/LH sign bit free, SB/SH truncation not looked up: refuted within complete memory systems"
 },
 "C29": {
  "note": "sound and complete for every run from a freshly loaded program"
 },
 "C30": {
  "note": "proved when each register is initialised before its accesses (generated tables do so, C78); refuted otherwise (first row may be a read; a second init row is allowed)"
 },
 "C31": {
  "note": "initialisation clocks 0/1 and access clocks below 2^40 are what the lookups of the init and skeleton tables give"
 },
 "C32": {
  "note": "injective up to LB/LBU and LH/LHU (refuted there: is_dst_signed is not packed); every running row fetches the ROM word at its pc, but the row's columns are not range checked, so any ROM word can be executed as HALT (C32_halt_refuted)"
 },
 "C33": {
  "note": "sound within the memory system of lookups; generated rows from any execution satisfy constraints and both CPU lookups"
 },
 "C40": {
  "note": "proved for every sorted list unless all leaves sit at exactly two addresses differing in the top bit; there the code panics (overflow checks) or loops for ever (C40_top_bit_refuted)"
 },
 "C41": {
  "note": "refuted: the leaves are in byte order of the little-endian address, not in u64 order, and the root is not the address-prefix root; proved: canonical order, independence of emission order"
 },
 "C44": {
  "note": "messages addressed to the program are consumed once, in order; refuted: messages claiming the program as caller may be skipped; a nested call followed by another send is not replayable"
 },
 "C48": {
  "note": "proved for canonically ordered tapes; refuted in general: the VM does not check the order of the tape"
 },
 "C49": {
  "note": "in-range reads and seeks over fetched bytes proved; short reads and reads after a forward seek panic (refuted)"
 },
 "C50": {
  "note": "proved with overflow checks; refuted without (the guest's release profile): the heap pointer wraps"
 },
 "C51": {
  "note": "whenever tapes are assembled they are accepted; they are not assembled in the C40 refutation case"
 },
 "C52": {
  "note": "Soundness holds for proofs that name their own circuit (_partial) and completeness for all trees (_complete); nothing in the code checks the named verifier, so arbitrary statements are accepted (_refuted)."
 },
 "C53": {
  "note": "Genuine proofs: sound, determined, complete. Byte decompositions are not forced to be canonical, so the VM address a+P passes as a (_refuted)."
 },
 "C54": {
  "note": "Soundness and completeness for genuine proofs, over collision-free hash histories."
 },
 "C55": {
  "note": "All but program identity proved; the program proof's verifier data is not tied to the program id (_refuted)."
 },
 "C56": {
  "note": "Soundness and completeness."
 },
 "C57": {
  "note": "Soundness and completeness; the rules are transition_ok / legal_transition in RecSpec."
 },
 "C58": {
  "note": "Soundness and completeness for every height (addresses modulo the field size)."
 },
 "C59": {
  "note": "Proved for genuine proofs; refuted without the verifier check."
 },
 "C60": {
  "note": "Both halves proved for genuine blocks."
 },
 "C61": {
  "note": "What does hold is proved; the owner rule for writes, the ensure rule and the credit floor are each refuted by an accepted proof."
 },
 "C62": {
  "note": "Proved for all histories at addresses below P-1 (_partial); at address P-1 every operation panics (C62_address_refuted)."
 },
 "C63": {
  "note": "Proved for histories in which no ended block leaves a touched address empty (_partial); after a block that deletes an object beside an untouched one the cached proof is stale (_refuted, up to a hash collision)."
 },
 "C64": {
  "note": "Holds for every step of every instruction from every well-formed state, and hence for every row of a record."
 },
 "C65": {
  "note": "Proved for every length, merge and hash."
 },
 "C66": {
  "note": "Proved for every list; the shape claim for ordered lists only. CanonicalEvent order in the SDK compares little-endian address bytes, so lists from the SDK need not be ordered numerically: node and SDK then agree on a tree that is not an address trie."
 },
 "C67": {
  "note": "Heights differ by less than 64 and addresses joined lie in the same half. Refuted otherwise: leaves in different halves of the address space have no common ancestor (panic), and the event tree of a program touching both halves cannot be compared with any leaf (C67_compare_refuted)."
 },
 "C68": {
  "note": "Proved for the cast sizes in which every right subtree fits the path bits (1, 3, 5, 7, 9, 13, 15, ...). Refuted for all others: the path has the bits of the length, not of length - 1, so after program 0 the cast is never completed; for 4, 8, 16, ... in any order. A program accepted once is refused from then on (C68_duplicate)."
 },
 "C69": {
  "note": "Proved for at most one event per address and program, addresses below 2^63; order independence for pairwise distinct addresses. Refuted beyond: two events of one program at one address (or two programs' events there) meeting another event at the same or the neighbouring address panic the node (unreachable!)."
 },
 "C70": {
  "note": "Proved for one transaction with at most three events per address in any batches, and for any interleaving of transactions touching distinct addresses. Refuted: four events of one program at one address (balanced tree against left comb) and two programs ingested in the reverse of cast order give different roots, so the block cannot be proved."
 },
 "C71": {
  "note": "Proved with the exact condition: a table satisfies its constraints iff no empty read of the tape is directly followed by a non-empty one (cyclically when the table is full). Refuted without it: such programs run but cannot be proved."
 },
 "C72": {
  "note": "Call rows and CPU reads correspond (C72_calls). The writes are only guaranteed under the chaining conditions the constraints omit; without them an accepted proof may write arbitrary bytes with no environment call, or execute a read that writes nothing."
 },
 "C73": {
  "note": "Proved: published bytes are the marked rows up to order, read bytes are published, generated tables are accepted iff every read asks for all 32 bytes. Refuted: partial reads cannot be proved; the order of the published bytes is not enforced."
 },
 "C74": {
  "note": "Proved for every execution with the exact condition on generation: a message ending at address 2^32 makes generation overflow (panic in a checked build). The digest address is added without wrapping: a digest wrapping around 2^32 runs but cannot be proved. The plonky2 round constants are parameters."
 },
 "C75": {
  "note": "Proved: calls and message starts correspond at each clock (C75_calls); under the chaining conditions the constraints omit, loads, digest and store address are right and nothing else is stored or loaded. Refuted without them: digest stored with no call, call without digest, digest stored elsewhere, non-canonical digest bytes, and (for every constant set) the zero digest for a chosen message."
 },
 "C76": {
  "note": "Generated rows are accepted and right; an accepted row with honest cubes is right (C76_output_partial). The cube columns are not constrained, so an accepted table may map any state to zero (C76_output_refuted, for every constant set)."
 },
 "C77": {
  "note": "Proved for programs whose read-only and writable memory are disjoint and whose hashed messages and digests end below 2^32. C77_overlap_refuted: with an address in both (which the loader documents as allowed) generation gives it two initial rows and the table cannot be proved. The number of rows is assumed within the field's two-adic limit."
 },
 "C78": {
  "note": "Proved for programs whose branches, stores and ECALL name x0 as destination, which holds of everything the loader produces (C78_loaded), and whose hashed messages do not end at 2^32 exactly (C74: those panic). The number of rows is assumed within the field's two-adic limit."
 },
 "C79": {
  "note": "Proved under the conditions found necessary by the refuted parts of C25 (-31 and -1, odd JALR targets, unknown environment calls), C71 (empty tape reads), C73 (32-byte commitment reads), C74 (messages ending at 2^32) and C77 (overlapping segments, wrapping digests); the soundness of STARKs themselves and the field's limit on the number of rows are outside the model. C79_compressed_partial adds that the verifier that compares lookups at random challenges accepts."
 },
 "C80": {
  "note": "Refuted as stated (finding 35: signed loads). Proved, for tables with no environment calls except HALT and with the gaps of findings 2, 4-12, 36 and 37 closed by hypothesis (record gaps_closed): the VM halts on that program with any tapes and the tables describe its run step by step, including every byte loaded from and stored to memory. Missing: the other environment calls (input tapes, Poseidon2). C80_challenges_partial states it for the verifier that compares lookups at random challenges: tables that describe no run are accepted for a vanishing fraction of the challenges."
 },
 "C81": {
  "note": "Proved for every lookup and public sub table whose sides have the same number of columns; C81_equal_widths_needed shows that this cannot be dropped and C81_zero_denominator_accepts that some challenges do deceive. Not modelled: the transcript from which the challenges are drawn, and the polynomial commitment that reduces the constraints on the trace domain to a random point."
 },
 "C82": {
  "note": "Proved for all tables whose array-valued cells have the code's number of elements. C79_compressed_partial and C80_challenges_partial restate C79 and C80 for this verifier. Not modelled: the transcript from which the challenges are drawn, and the polynomial commitment that reduces the constraints on the trace domain to a random point."
 },
 "C83": {
  "note": "Proved. plonky2's gates and starky's consumers are outside the repository and modelled by their defining formulas; locations of constraints (for debugging) are not modelled. C83_constants_overflow shows why the range of i64 is a condition."
 },
 "C84": {
  "note": "Proved. The tables' actual lookups are modelled where the tables are (evaluated rows); packed fields are a ring like any other."
 },
 "C85": {
  "note": "Layout and completeness proved; soundness under the hypothesis that the openings have the shape the constraint system prescribes, which the verifier checks only for the separately proved tables: without it, C85_refuted accepts any committed polynomials whose lookups are satisfied, whatever the constraints (finding 42)."
 },
 "C86": {
  "note": "Proved."
 },
 "C87": {
  "note": "Proved, over any field (the extension field of the code is an instance). FRI itself is not modelled; the prover's computation of quotients is C88."
 },
 "C88": {
  "note": "Proved. Packed arithmetic is modelled one point at a time."
 },
 "C89": {
  "note": "Proved. The circuits of the constraints themselves are taken by their values (ExprModel, C83)."
 },
 "C90": {
  "note": "Same challenges proved for public tables listed in table order (C90_same_partial; PUBLIC_TABLE_KINDS is); refuted for other orders. The recursive challenger is proved equal (C90_recursive). That the statement is fixed first is refuted: published rows enter no transcript (finding 43)."
 }
}