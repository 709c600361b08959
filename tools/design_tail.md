## 5. Findings
Every finding has a `_refuted` theorem (or is part of the statement of the theorem named).
1. `generate_div_row` writes `-2 ^ 31`, which in Rust is XOR: honest `-31 / -1` (and friends) cannot be proved (C25).
2. `is_dst_signed` is not part of the ROM packing: LB/LBU and LH/LHU are interchangeable (C32).
3. ECALL rows leave the next pc unconstrained (C24).
4. SLT/SLTU: `abs_diff` is not range checked, either result is accepted (C21).
5. SB/SH truncation uses the XOR columns without looking them up (C36).
6. DIV/REM/SRL: `quotient_sign` is not forced to be a bit when the check is skipped (C23).
7. ROM packing is a non-injective linear combination of unchecked columns: any instruction can be executed as HALT (C32).
8. JALR does not clear bit 0 and its target is not range checked; transition constraints skip the last row (C24).
9. Register table: re-initialisation is possible mid-run, and the first row may be a read (C30).
10. Range check: rows with multiplicity -1 forge membership (C34).
11. The range check of the BLT-taken table is never registered (C35).
12. LW/SW register values are not linked to the fullword table (C36).
13. `merkleize` panics / loops for exactly two addresses differing in bit 63 (C40).
14. The event commitment sorts by little-endian byte order, not by address (C41); the VM does not check the order (C48).
15. The VM call tape skips messages claiming the program itself as caller (C44); nested calls followed by a send are not
    replayable (C44).
16. Short input-tape reads and reads after forward seeks panic (C49); the guest allocator wraps in release builds (C50).
17. Recursive proofs: the verifier named in the public inputs of the recursion circuits is checked by nobody, so with
    any permissive circuit every statement can be proved (C52), including false chains of blocks (C59).
18. The verifier data of program proofs is not tied to the program id (C55).
19. Byte decompositions of field elements are not canonical: address `a + P` passes as `a` (C53).
20. Writes do not require ownership, ensure events are not enforced when nothing is written, anybody can move credits
    and credits can underflow (C61); blocks without events cannot be proved (C60).
21. Block proposer state: operations at address 2^64 - 2^32 (the field element -1) panic (C62); `finalize` keeps the
    proof of a branch whose deleted leaf was pruned next to an unused one, so the next block's proof is stale (C63).
22. Ingesting the programs of a transaction uses one path bit too many for most cast sizes: casts of 4, 8, 16, ... programs
    are never completed, casts of 2, 6, 10, ... only in some orders (C68).
23. `common_ancestor` and `compare` shift by 64: programs touching both halves of the address space crash the node (C67).
24. `merge_events` hits `unreachable!` (the node panics) when a program has two events at one address - or two programs one
    each - and another program of the block has an event there or at the neighbouring address (C69).
25. The transaction side and the match side of a block hash several events at one address in different shapes or orders, so
    blocks with four events of one program at an address, or with programs ingested out of cast order, cannot be proved (C70).
26. The SDK orders events by the little-endian bytes of the address, the node's trees assume numeric order: for such lists
    node and SDK agree on a tree that is not the address trie the match side builds (C66, C70).
27. The storage-device constraints do not chain the rows of a read: a detached store row is accepted (arbitrary writes to
    memory without an environment call), and a read may write nothing. One constraint tests the next row's helper column
    where its comment says the current row's (C72).
28. An empty tape read directly followed by a non-empty read of the same tape violates `lv.sd * nv.size * (nv.both - 1)`:
    the program runs but cannot be proved (C71).
29. The published event and cast-list commitments are bound as multisets of bytes: a proof for one is a proof for any
    rearrangement. A program reading fewer than 32 bytes of a commitment cannot be proved (C73).
30. The S-box helper columns of the Poseidon2 permutation table are not constrained to be cubes: for any constants and any
    state there is an accepted row whose output is zero, so digests can be forged outright (C75, C76).
31. The sponge constraints do not chain the blocks of a message: a permute row may follow a dummy row (a digest is stored to
    memory with no environment call), a non-final row may be followed by a dummy row (a call stores no digest) and the
    output address is not carried from row to row (the digest of a longer message may be stored anywhere) (C75).
32. The output-bytes table does not require canonical encodings: small field elements have two accepted encodings (C75).
33. A hashed message ending exactly at 2^32 makes trace generation overflow, and a digest address within 31 bytes of 2^32
    cannot be proved although the executor wraps it (C74).
34. A program with an address in both a read-only and a writable segment runs (documented: read-only wins) but gets two
    initial rows for it in the memory table, so it cannot be proved (C77).
35. Whole-proof forgery: the program `LB x5, 100(x0); BGE x5, x0, +12; ...` with a byte >= 128 at address 100 panics on every
    input, and yet a complete set of accepted tables for it exists, because LB and LBU have the same ROM row (C80).
36. The `is_running` columns of the ADD and BLTU tables are not constrained at all, not even to be bits: they are used as
    multiplicities of the skeleton, program, register and range-check lookups. Likewise the signedness columns of CPU rows
    that execute nothing are free, so such rows send arbitrary multiplicities to the range check (see finding 10). C80
    assumes these closed (`gc_running`, `gc_rc`).
37. The sign column of signed byte and half-word loads is not checked against the loaded value (C36_lb_sign_refuted): the
    range check meant to do it is on the value minus its own sign extension, which holds for either sign. C80 assumes it (`gc_lb`, `gc_lh`).
38. CrossTableLookup::new (circuits/src/cross_table_lookup.rs:267-281) documents a panic when the tables do not have equal
    numbers of columns, and checks nothing; tuples that differ only in trailing zeros are compressed to the same value, so
    such a lookup would identify them for every challenge (C81_equal_widths_needed). The lookups of the code are built from
    typed rows of equal width.
39. A row whose tuple is compressed to zero panics in the honest prover even when its filter is zero, and for the verifier
    leaves the auxiliary column free at that row (C81_zero_denominator_accepts): at most rows * p of the p^2 challenges.
40. The comment on GrandProductChallenge::combine (circuits/src/stark/permutation.rs:55-57) gives the first term the highest
    power of beta; reduce_with_powers gives it the lowest. The prover, the verifier and the circuits agree with each other.
41. Expr::bin_op and una_op (expr/src/lib.rs:92-110) compute on two integer constants in i64 although the expression stands for
    a field element: constants beyond the range panic with overflow checks and wrap silently without
    (C83_constants_overflow). No constraint of the circuits comes near the range.
42. batch_verify_proof does not check the shape of the openings of the batched tables (validate_proof_shape is only called from
    verify_stark_proof_with_challenges). If the openings of a table's quotients are moved to the end of `ctl_zs`, what FRI and the
    transcript see is unchanged, CtlCheckVars::from_proofs ignores the surplus, and the loop over the chunks of `quotient_polys` is
    empty: no constraint of any batched table is checked, and any trace with matching lookups is accepted (C85_refuted).
43. **Public values are not part of the transcript** (circuits/src/stark/proof.rs:400 and batch_verifier.rs:50, "TODO: Observe public
    values"; C90_public_values_refuted). The challenges that compress published rows are drawn from the trace caps alone, and the rows are
    only compared after compression. Whoever has a proof can compute other rows with the same compressed values, and the same proof is accepted
    with them: for rows of more columns than challenges by adding the coefficients of the polynomial that vanishes at both betas. The two sub
    tables of this commit have one column; there the forger solves for the elementary symmetric functions of three rows, two linear equations, until
    the polynomial splits (C90_one_column_refuted shows a solution found that way in four tries). The public input, the entry point, is not observed either.
44. **The order of the public tables matters** (circuits/src/stark/batch_verifier.rs:45, recursive_verifier.rs:336; C90_order_refuted). The prover
    absorbs the caps in the order of TableKind, the verifiers in the order of the slice they are given; for a slice in another order honest
    proofs are rejected. PUBLIC_TABLE_KINDS is in table order.

## 6. Testing the theorems
`tools/mutate.py` applies realistic bugs to a scratch copy of the model, rebuilds, and lists which theorems stop
being provable; results are in `seeded/LOG.jsonl`, including theorems tightened because a bug survived.
