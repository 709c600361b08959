{
 "claims": [
  {
   "property": "C01",
   "status": "proved",
   "theorems": [
    "C01_decode_total"
   ],
   "note": ""
  },
  {
   "property": "C02",
   "status": "proved",
   "theorems": [
    "C02_decode_encode"
   ],
   "note": ""
  },
  {
   "property": "C03",
   "status": "proved",
   "theorems": [
    "C03_step_implements_isa"
   ],
   "note": ""
  },
  {
   "property": "C04",
   "status": "proved",
   "theorems": [
    "C04_x0_zero"
   ],
   "note": ""
  },
  {
   "property": "C05",
   "status": "proved",
   "theorems": [
    "C05_read_only_constant",
    "C05_store_aborts",
    "C05_tape_read_aborts",
    "C05_poseidon_aborts"
   ],
   "note": ""
  },
  {
   "property": "C06",
   "status": "proved",
   "theorems": [
    "C06_store_bytes",
    "C06_store_then_load"
   ],
   "note": ""
  },
  {
   "property": "C07",
   "status": "proved",
   "theorems": [
    "C07_m_extension"
   ],
   "note": ""
  },
  {
   "property": "C08",
   "status": "proved",
   "theorems": [
    "C08_record_faithful",
    "C08_deterministic",
    "C08_halting_run_exists"
   ],
   "note": ""
  },
  {
   "property": "C09",
   "status": "proved",
   "theorems": [
    "C09_halt_in_place",
    "C09_only_halt_halts",
    "C09_run_stops_at_first_halt"
   ],
   "note": ""
  },
  {
   "property": "C10",
   "status": "proved",
   "theorems": [
    "C10_stream_prefix",
    "C10_constant_tapes_stay",
    "C10_read_amount"
   ],
   "note": ""
  },
  {
   "property": "C11",
   "status": "proved",
   "theorems": [
    "C11_read_writes"
   ],
   "note": ""
  },
  {
   "property": "C12",
   "status": "proved",
   "theorems": [
    "C12_unknown_call"
   ],
   "note": ""
  },
  {
   "property": "C13",
   "status": "proved",
   "theorems": [
    "C13_poseidon2",
    "C13_digest_determined",
    "C13_poseidon2_aborts"
   ],
   "note": ""
  },
  {
   "property": "C14",
   "status": "proved",
   "theorems": [
    "C14_loaded_image",
    "C14_loaded_program_well_formed",
    "C14_load_rejects"
   ],
   "note": ""
  },
  {
   "property": "C15",
   "status": "proved",
   "theorems": [
    "C15_fetch_from_image",
    "C15_same_pc_same_instruction"
   ],
   "note": ""
  },
  {
   "property": "C20",
   "status": "proved",
   "theorems": [
    "C20_add_sound",
    "C20_add_complete"
   ],
   "note": "soundness assumes what the range-check lookup of the row gives (see C34); from clock 2^32 on ADD generation panics (part of C20_add_complete)"
  },
  {
   "property": "C21",
   "status": "partial",
   "theorems": [
    "C21_bitwise",
    "C21_slt_partial",
    "C21_slt_refuted"
   ],
   "note": "SUB/AND/OR/XOR proved in full; SLT(U) needs abs_diff to be range checked, which it is not: C21_slt_refuted exhibits an accepted table"
  },
  {
   "property": "C22",
   "status": "proved",
   "theorems": [
    "C22_mul"
   ],
   "note": ""
  },
  {
   "property": "C23",
   "status": "partial",
   "theorems": [
    "C23_div_partial",
    "C23_divu_refuted",
    "C23_remu_refuted",
    "C23_srl_refuted"
   ],
   "note": "needs quotient_sign to be a bit on rows with skip_check_quotient_sign = 1; refuted otherwise (DIVU, REMU, SRL)"
  },
  {
   "property": "C24",
   "status": "partial",
   "theorems": [
    "C24_branch",
    "C24_straight_partial",
    "C24_jump_partial",
    "C24_last_row_refuted",
    "C24_last_jalr_refuted",
    "C24_jalr_range_refuted",
    "C24_ecall_refuted"
   ],
   "note": "branches proved; straight-line/jumps hold on all rows but the last (transition constraints); refuted: last row, JALR target range, ECALL next pc"
  },
  {
   "property": "C25",
   "status": "partial",
   "theorems": [
    "C25_honest_row_partial",
    "C25_padding_row",
    "C25_minus31_refuted",
    "C25_odd_jalr_refuted",
    "C25_pc_wrap_refuted"
   ],
   "note": "proved for every provable step; refuted for -31/-1, odd JALR target, pc wrap"
  },
  {
   "property": "C26",
   "status": "proved",
   "theorems": [
    "C26_one_operation"
   ],
   "note": ""
  },
  {
   "property": "C27",
   "status": "proved",
   "theorems": [
    "C27_xor_sound",
    "C27_xor_complete",
    "C27_xor_padding"
   ],
   "note": ""
  },
  {
   "property": "C28",
   "status": "proved",
   "theorems": [
    "C28_shift_sound",
    "C28_shift_complete"
   ],
   "note": ""
  },
  {
   "property": "C29",
   "status": "proved",
   "theorems": [
    "C29_skeleton_sound",
    "C29_skeleton_complete",
    "C29_vm_run"
   ],
   "note": "sound and complete for every run from a freshly loaded program"
  },
  {
   "property": "C30",
   "status": "partial",
   "theorems": [
    "C30_reads_last_write_partial",
    "C30_first_row_refuted",
    "C30_reinit_refuted",
    "C30_register_numbers"
   ],
   "note": "proved when each register is initialised before its accesses (generated tables do so, C78); refuted otherwise (first row may be a read; a second init row is allowed)"
  },
  {
   "property": "C31",
   "status": "proved",
   "theorems": [
    "C31_loads_last_store",
    "C31_one_init",
    "C31_readonly"
   ],
   "note": "initialisation clocks 0/1 and access clocks below 2^40 are what the lookups of the init and skeleton tables give"
  },
  {
   "property": "C32",
   "status": "partial",
   "theorems": [
    "C32_rom_injective_partial",
    "C32_lb_lbu_refuted",
    "C32_fetch",
    "C32_halt_refuted"
   ],
   "note": "injective up to LB/LBU and LH/LHU (refuted there: is_dst_signed is not packed); every running row fetches the ROM word at its pc, but the row's columns are not range checked, so any ROM word can be executed as HALT (C32_halt_refuted)"
  },
  {
   "property": "C33",
   "status": "proved",
   "theorems": [
    "C33_halfword_sound",
    "C33_fullword_sound",
    "C33_cpu_bytes",
    "C33_generated"
   ],
   "note": "sound within the memory system of lookups; generated rows from any execution satisfy constraints and both CPU lookups"
  },
  {
   "property": "C34",
   "status": "partial",
   "theorems": [
    "C34_rangecheck_partial",
    "C34_rangecheck_refuted",
    "C34_u8_table",
    "C34_complete"
   ],
   "note": "proved when multiplicities are non-negative with totals below p; refuted in general (multiplicity -1 rows)"
  },
  {
   "property": "C35",
   "status": "partial",
   "theorems": [
    "C35_bltu_taken_partial",
    "C35_bltu_taken_refuted"
   ],
   "note": "the range check of the table is never registered and it has no constraints"
  },
  {
   "property": "C36",
   "status": "partial",
   "theorems": [
    "C36_address",
    "C36_offset",
    "C36_load_unsigned",
    "C36_load_signed_partial",
    "C36_lb_sign_refuted",
    "C36_lw_refuted",
    "C36_store_partial",
    "C36_sb_refuted",
    "C36_sw_refuted"
   ],
   "note": "address proved in full; LW/SW values unconstrained, LB/LH sign bit free, SB/SH truncation not looked up: refuted within complete memory systems"
  },
  {
   "property": "C40",
   "status": "partial",
   "theorems": [
    "C40_merkleize_partial",
    "C40_base",
    "C40_top_bit_refuted"
   ],
   "note": "proved for every sorted list unless all leaves sit at exactly two addresses differing in the top bit; there the code panics (overflow checks) or loops for ever (C40_top_bit_refuted)"
  },
  {
   "property": "C41",
   "status": "partial",
   "theorems": [
    "C41_sorted_refuted",
    "C41_root_refuted",
    "C41_order_independent_partial",
    "C41_canonical_sorted_partial"
   ],
   "note": "refuted: the leaves are in byte order of the little-endian address, not in u64 order, and the root is not the address-prefix root; proved: canonical order, independence of emission order"
  },
  {
   "property": "C42",
   "status": "proved",
   "theorems": [
    "C42_hints",
    "C42_inverse"
   ],
   "note": ""
  },
  {
   "property": "C43",
   "status": "proved",
   "theorems": [
    "C43_native_accepted",
    "C43_sound",
    "C43_exact"
   ],
   "note": ""
  },
  {
   "property": "C44",
   "status": "partial",
   "theorems": [
    "C44_consumes_partial",
    "C44_forged_send_refuted",
    "C44_replay_partial",
    "C44_nested_refuted"
   ],
   "note": "messages addressed to the program are consumed once, in order; refuted: messages claiming the program as caller may be skipped; a nested call followed by another send is not replayable"
  },
  {
   "property": "C45",
   "status": "proved",
   "theorems": [
    "C45_native_recording"
   ],
   "note": ""
  },
  {
   "property": "C46",
   "status": "proved",
   "theorems": [
    "C46_padding"
   ],
   "note": ""
  },
  {
   "property": "C47",
   "status": "proved",
   "theorems": [
    "C47_digest_words"
   ],
   "note": ""
  },
  {
   "property": "C48",
   "status": "partial",
   "theorems": [
    "C48_canonical_tapes_partial",
    "C48_any_tape_refuted"
   ],
   "note": "proved for canonically ordered tapes; refuted in general: the VM does not check the order of the tape"
  },
  {
   "property": "C49",
   "status": "partial",
   "theorems": [
    "C49_read_partial",
    "C49_fresh",
    "C49_seek_partial",
    "C49_short_read_refuted",
    "C49_seek_forward_refuted"
   ],
   "note": "in-range reads and seeks over fetched bytes proved; short reads and reads after a forward seek panic (refuted)"
  },
  {
   "property": "C50",
   "status": "partial",
   "theorems": [
    "C50_alloc_partial",
    "C50_wrap_refuted"
   ],
   "note": "proved with overflow checks; refuted without (the guest's release profile): the heap pointer wraps"
  },
  {
   "property": "C51",
   "status": "partial",
   "theorems": [
    "C51_assembled_tapes_partial",
    "C51_cast_commitment",
    "C51_length_prefix"
   ],
   "note": "whenever tapes are assembled they are accepted; they are not assembled in the C40 refutation case"
  },
  {
   "property": "C52",
   "status": "partial",
   "theorems": [
    "C52_recursion_partial",
    "C52_recursion_complete",
    "C52_recursion_refuted"
   ],
   "note": "Soundness holds for proofs that name their own circuit (_partial) and completeness for all trees (_complete); nothing in the code checks the named verifier, so arbitrary statements are accepted (_refuted)."
  },
  {
   "property": "C53",
   "status": "partial",
   "theorems": [
    "C53_event_root_partial",
    "C53_event_root_determines",
    "C53_event_root_complete",
    "C53_address_refuted"
   ],
   "note": "Genuine proofs: sound, determined, complete. Byte decompositions are not forced to be canonical, so the VM address a+P passes as a (_refuted)."
  },
  {
   "property": "C54",
   "status": "proved",
   "theorems": [
    "C54_merge",
    "C54_merge_complete"
   ],
   "note": "Soundness and completeness for genuine proofs, over collision-free hash histories."
  },
  {
   "property": "C55",
   "status": "partial",
   "theorems": [
    "C55_transactions_partial",
    "C55_program_identity_refuted"
   ],
   "note": "All but program identity proved; the program proof's verifier data is not tied to the program id (_refuted)."
  },
  {
   "property": "C56",
   "status": "proved",
   "theorems": [
    "C56_accumulate",
    "C56_accumulate_complete"
   ],
   "note": "Soundness and completeness."
  },
  {
   "property": "C57",
   "status": "proved",
   "theorems": [
    "C57_match",
    "C57_match_complete"
   ],
   "note": "Soundness and completeness; the rules are transition_ok / legal_transition in RecSpec."
  },
  {
   "property": "C58",
   "status": "proved",
   "theorems": [
    "C58_state_update",
    "C58_state_update_complete"
   ],
   "note": "Soundness and completeness for every height (addresses modulo the field size)."
  },
  {
   "property": "C59",
   "status": "partial",
   "theorems": [
    "C59_chain_partial",
    "C59_chain_refuted"
   ],
   "note": "Proved for genuine proofs; refuted without the verifier check."
  },
  {
   "property": "C60",
   "status": "proved",
   "theorems": [
    "C60_changes_have_events",
    "C60_no_empty_blocks"
   ],
   "note": "Both halves proved for genuine blocks."
  },
  {
   "property": "C61",
   "status": "partial",
   "theorems": [
    "C61_object_rules_partial",
    "C61_owner_write_refuted",
    "C61_ensure_refuted",
    "C61_credits_refuted"
   ],
   "note": "What does hold is proved; the owner rule for writes, the ensure rule and the credit floor are each refuted by an accepted proof."
  },
  {
   "property": "C62",
   "status": "partial",
   "theorems": [
    "C62_state_map_partial",
    "C62_conflicts_refused",
    "C62_state_frame",
    "C62_state_commit",
    "C62_address_refuted"
   ],
   "note": "Proved for all histories at addresses below P-1 (_partial); at address P-1 every operation panics (C62_address_refuted)."
  },
  {
   "property": "C63",
   "status": "partial",
   "theorems": [
    "C63_state_proof_partial",
    "C63_state_proof_refuted"
   ],
   "note": "Proved for histories in which no ended block leaves a touched address empty (_partial); after a block that deletes an object beside an untouched one the cached proof is stale (_refuted, up to a hash collision)."
  },
  {
   "property": "C64",
   "status": "proved",
   "theorems": [
    "C64_step_values",
    "C64_record_values"
   ],
   "note": "Holds for every step of every instruction from every well-formed state, and hence for every row of a record."
  },
  {
   "property": "C65",
   "status": "proved",
   "theorems": [
    "C65_balanced",
    "C65_cast_root"
   ],
   "note": "Proved for every length, merge and hash."
  },
  {
   "property": "C66",
   "status": "proved",
   "theorems": [
    "C66_event_tree",
    "C66_sdk_root"
   ],
   "note": "Proved for every list; the shape claim for ordered lists only. CanonicalEvent order in the SDK compares little-endian address bytes, so lists from the SDK need not be ordered numerically: node and SDK then agree on a tree that is not an address trie."
  },
  {
   "property": "C67",
   "status": "partial",
   "theorems": [
    "C67_compare_partial",
    "C67_leaf_ancestor",
    "C67_ancestor_partial",
    "C67_compare_refuted",
    "C67_child"
   ],
   "note": "Heights differ by less than 64 and addresses joined lie in the same half. Refuted otherwise: leaves in different halves of the address space have no common ancestor (panic), and the event tree of a program touching both halves cannot be compared with any leaf (C67_compare_refuted)."
  },
  {
   "property": "C68",
   "status": "partial",
   "theorems": [
    "C68_any_order_partial",
    "C68_any_order_refuted",
    "C68_power_of_two_refuted",
    "C68_duplicate"
   ],
   "note": "Proved for the cast sizes in which every right subtree fits the path bits (1, 3, 5, 7, 9, 13, 15, ...). Refuted for all others: the path has the bits of the length, not of length - 1, so after program 0 the cast is never completed; for 4, 8, 16, ... in any order. A program accepted once is refused from then on (C68_duplicate)."
  },
  {
   "property": "C69",
   "status": "partial",
   "theorems": [
    "C69_merge_partial",
    "C69_merged_list",
    "C69_branch_partial",
    "C69_order_partial",
    "C69_merge_refuted",
    "C69_third_program_refuted"
   ],
   "note": "Proved for at most one event per address and program, addresses below 2^63; order independence for pairwise distinct addresses. Refuted beyond: two events of one program at one address (or two programs' events there) meeting another event at the same or the neighbouring address panic the node (unreachable!)."
  },
  {
   "property": "C70",
   "status": "partial",
   "theorems": [
    "C70_one_tx_partial",
    "C70_next_block_partial",
    "C70_distinct_partial",
    "C70_four_events_refuted",
    "C70_order_refuted"
   ],
   "note": "Proved for one transaction with at most three events per address in any batches, and for any interleaving of transactions touching distinct addresses. Refuted: four events of one program at one address (balanced tree against left comb) and two programs ingested in the reverse of cast order give different roots, so the block cannot be proved."
  },
  {
   "property": "C71",
   "status": "partial",
   "theorems": [
    "C71_generated_partial",
    "C71_generated_refuted"
   ],
   "note": "Proved with the exact condition: a table satisfies its constraints iff no empty read of the tape is directly followed by a non-empty one (cyclically when the table is full). Refuted without it: such programs run but cannot be proved."
  },
  {
   "property": "C72",
   "status": "partial",
   "theorems": [
    "C72_calls",
    "C72_writes_partial",
    "C72_write_without_call_refuted",
    "C72_read_without_write_refuted"
   ],
   "note": "Call rows and CPU reads correspond (C72_calls). The writes are only guaranteed under the chaining conditions the constraints omit; without them an accepted proof may write arbitrary bytes with no environment call, or execute a read that writes nothing."
  },
  {
   "property": "C73",
   "status": "partial",
   "theorems": [
    "C73_generated_partial",
    "C73_generated_refuted",
    "C73_published_partial",
    "C73_published_cast_partial",
    "C73_order_refuted"
   ],
   "note": "Proved: published bytes are the marked rows up to order, read bytes are published, generated tables are accepted iff every read asks for all 32 bytes. Refuted: partial reads cannot be proved; the order of the published bytes is not enforced."
  },
  {
   "property": "C74",
   "status": "partial",
   "theorems": [
    "C74_generated_partial",
    "C74_generated_refuted",
    "C74_wrapped_digest_refuted"
   ],
   "note": "Proved for every execution with the exact condition on generation: a message ending at address 2^32 makes generation overflow (panic in a checked build). The digest address is added without wrapping: a digest wrapping around 2^32 runs but cannot be proved. The plonky2 round constants are parameters."
  },
  {
   "property": "C75",
   "status": "partial",
   "theorems": [
    "C75_calls",
    "C75_hash_partial",
    "C75_only_calls_partial",
    "C75_write_without_call_refuted",
    "C75_call_without_digest_refuted",
    "C75_digest_elsewhere_refuted",
    "C75_noncanonical_digest_refuted",
    "C75_forged_digest_refuted"
   ],
   "note": "Proved: calls and message starts correspond at each clock (C75_calls); under the chaining conditions the constraints omit, loads, digest and store address are right and nothing else is stored or loaded. Refuted without them: digest stored with no call, call without digest, digest stored elsewhere, non-canonical digest bytes, and (for every constant set) the zero digest for a chosen message."
  },
  {
   "property": "C76",
   "status": "partial",
   "theorems": [
    "C76_generated",
    "C76_output_partial",
    "C76_output_refuted"
   ],
   "note": "Generated rows are accepted and right; an accepted row with honest cubes is right (C76_output_partial). The cube columns are not constrained, so an accepted table may map any state to zero (C76_output_refuted, for every constant set)."
  },
  {
   "property": "C77",
   "status": "partial",
   "theorems": [
    "C77_generated_partial",
    "C77_history_partial",
    "C77_overlap_refuted"
   ],
   "note": "Proved for programs whose read-only and writable memory are disjoint and whose hashed messages and digests end below 2^32. C77_overlap_refuted: with an address in both (which the loader documents as allowed) generation gives it two initial rows and the table cannot be proved. The number of rows is assumed within the field's two-adic limit."
  },
  {
   "property": "C78",
   "status": "partial",
   "theorems": [
    "C78_loaded",
    "C78_generated_partial",
    "C78_history_partial"
   ],
   "note": "Proved for programs whose branches, stores and ECALL name x0 as destination, which holds of everything the loader produces (C78_loaded), and whose hashed messages do not end at 2^32 exactly (C74: those panic). The number of rows is assumed within the field's two-adic limit."
  },
  {
   "property": "C79",
   "status": "partial",
   "theorems": [
    "C79_compressed_partial",
    "C79_loaded",
    "C79_generated_partial",
    "C79_elf_partial",
    "C79_generated_refuted"
   ],
   "note": "Proved under the conditions found necessary by the refuted parts of C25 (-31 and -1, odd JALR targets, unknown environment calls), C71 (empty tape reads), C73 (32-byte commitment reads), C74 (messages ending at 2^32) and C77 (overlapping segments, wrapping digests); the soundness of STARKs themselves and the field's limit on the number of rows are outside the model. C79_compressed_partial adds that the verifier that compares lookups at random challenges accepts."
  },
  {
   "property": "C80",
   "status": "partial",
   "theorems": [
    "C80_signed_load_refuted",
    "C80_challenges_partial",
    "C80_execution_partial"
   ],
   "note": "Refuted as stated (finding 35: signed loads). Proved, for tables with no environment calls except HALT and with the gaps of findings 2, 4-12, 36 and 37 closed by hypothesis (record gaps_closed): the VM halts on that program with any tapes and the tables describe its run step by step, including every byte loaded from and stored to memory. Missing: the other environment calls (input tapes, Poseidon2). C80_challenges_partial states it for the verifier that compares lookups at random challenges: tables that describe no run are accepted for a vanishing fraction of the challenges."
  },
  {
   "property": "C81",
   "status": "proved",
   "theorems": [
    "C81_lookup_sound",
    "C81_lookup_complete",
    "C81_last_value_determined",
    "C81_public_sound",
    "C81_public_complete",
    "C81_verifier_openings",
    "C81_zero_denominator_accepts",
    "C81_equal_widths_needed"
   ],
   "note": "Proved for every lookup and public sub table whose sides have the same number of columns; C81_equal_widths_needed shows that this cannot be dropped and C81_zero_denominator_accepts that some challenges do deceive. Not modelled: the transcript from which the challenges are drawn, and the polynomial commitment that reduces the constraints on the trace domain to a random point."
  },
  {
   "property": "C82",
   "status": "proved",
   "theorems": [
    "C82_verifier_sound",
    "C82_balanced_accepted"
   ],
   "note": "Proved for all tables whose array-valued cells have the code's number of elements. C79_compressed_partial and C80_challenges_partial restate C79 and C80 for this verifier. Not modelled: the transcript from which the challenges are drawn, and the polynomial commitment that reduces the constraints on the trace domain to a random point."
  },
  {
   "property": "C83",
   "status": "proved",
   "theorems": [
    "C83_uncached",
    "C83_cached",
    "C83_cached_work",
    "C83_circuit",
    "C83_packed",
    "C83_constraints_agree",
    "C83_field",
    "C83_is_binary",
    "C83_reduce",
    "C83_constants_overflow"
   ],
   "note": "Proved. plonky2's gates and starky's consumers are outside the repository and modelled by their defining formulas; locations of constraints (for debugging) are not modelled. C83_constants_overflow shows why the range of i64 is a condition."
  },
  {
   "property": "C84",
   "status": "proved",
   "theorems": [
    "C84_cells",
    "C84_evaluation",
    "C84_typed",
    "C84_no_overflow",
    "C84_sparse",
    "C84_composed",
    "C84_negated"
   ],
   "note": "Proved. The tables' actual lookups are modelled where the tables are (evaluated rows); packed fields are a ring like any other."
  },
  {
   "property": "C85",
   "status": "partial",
   "theorems": [
    "C85_layout",
    "C85_complete",
    "C85_openings_partial",
    "C85_refuted"
   ],
   "note": "Layout and completeness proved; soundness under the hypothesis that the openings have the shape the constraint system prescribes, which the verifier checks only for the separately proved tables: without it, C85_refuted accepts any committed polynomials whose lookups are satisfied, whatever the constraints (finding 42)."
  },
  {
   "property": "C86",
   "status": "proved",
   "theorems": [
    "C86_rounds",
    "C86_defined",
    "C86_degrees"
   ],
   "note": "Proved."
  },
  {
   "property": "C87",
   "status": "proved",
   "theorems": [
    "C87_sound",
    "C87_complete",
    "C87_lagrange"
   ],
   "note": "Proved, over any field (the extension field of the code is an instance). FRI itself is not modelled; the prover's computation of quotients is C88."
  },
  {
   "property": "C88",
   "status": "proved",
   "theorems": [
    "C88_prover",
    "C88_transforms"
   ],
   "note": "Proved. Packed arithmetic is modelled one point at a time."
  },
  {
   "property": "C89",
   "status": "proved",
   "theorems": [
    "C89_circuit",
    "C89_unique",
    "C89_every_challenge",
    "C89_sound",
    "C89_complete"
   ],
   "note": "Proved. The circuits of the constraints themselves are taken by their values (ExprModel, C83)."
  },
  {
   "property": "C90",
   "status": "partial",
   "theorems": [
    "C90_same_partial",
    "C90_order_refuted",
    "C90_recursive",
    "C90_public_values_refuted",
    "C90_one_column_refuted"
   ],
   "note": "Same challenges proved for public tables listed in table order (C90_same_partial; PUBLIC_TABLE_KINDS is); refuted for other orders. The recursive challenger is proved equal (C90_recursive). That the statement is fixed first is refuted: published rows enter no transcript (finding 43)."
  }
 ]
}